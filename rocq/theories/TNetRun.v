(** Property theorems C108: the law of a run of the activity-driven model with probabilistic contacts, and C107 for whole runs. *)
From Verif Require Import Base BaseFacts Arith64 MNetwork SNetwork MAgents MDeGroot MRandom SRandom PRandom RFacts PReservoir WRandom MActivity SActivity PActNet
  SProb SProb2 PProb PProb9 TRandom TProb3 SEquiv TEquiv SRenum SRelabel SNetNumber PNetNumber PRelabel TNetNumber SNetRun PNetRun.
From Coq Require Import Permutation Reals Lra FunctionalExtensionality.
Local Open Scope R_scope.

(** C108. The opinions form a Markov chain whose transition is: draw the contacts of everybody (C72), then one Runge-Kutta step with them.
    After [k] iterations every function [f] of the opinions has the mean that this chain gives it. *)
Theorem C108_run_law (lm : Libm EA) (q : PQ EA) (md : ad_model (a:=EA) (activity_agent ext)) (c : contact_model) (X : nat -> R) (k : nat) (f : list R -> R) :
  lpow EA lm = epow -> llog EA lm = elog -> (forall x : R, ltanh EA lm (Fin x) = Fin (tanh x)) ->
  pq_bag q -> pq_ordered (a:=EA) (fun x : ext => exists r, x = Fin r) q ->
  ad_ready (a:=EA) md -> admissible c -> described_by md c X ->
  expectation (fun us => of_opinions f (activity_run (a:=EA) lm tape_rng q k md us)) (run_mean c k f X).
Proof.
  intros Hp Hl Ht Hq Ho Hr Hc HD. exists (k * iteration_variates c)%nat. intros M HM.
  exact (run_law lm q Hp Hl Ht Hq Ho c Hc k f md X Hr HD M HM).
Qed.

Section Numbering.
Variables (sg tau : nat -> nat) (c : contact_model).
Hypothesis Hsg : renumbering (cm_n c) sg.
Hypothesis Htau : forall i, tau (sg i) = i.
Hypothesis Hsgt : forall i, sg (tau i) = i.
Hypothesis Hbots : forall i, (tau i < cm_bots c)%nat <-> (i < cm_bots c)%nat.
Notation c' := (renumbered_model tau c).
Lemma tau_eqb i j : (tau i =? tau j)%nat = (i =? j)%nat.
Proof using Hsgt. destruct (Nat.eqb_spec i j) as [->|Hne]; [apply Nat.eqb_refl|]. apply Nat.eqb_neq. intros E. apply Hne. rewrite <- (Hsgt i), <- (Hsgt j). now rewrite E. Qed.
Lemma drift_renamed E X i : drift c' E (fun j => X (tau j)) i = drift c (map (renamed tau) E) X (tau i).
Proof using Hsgt.
  unfold drift. cbn [cm_K cm_reluctance cm_alpha renumbered_model]. do 2 f_equal. rewrite tot_map. apply tot_ext. intros p _. cbn [renamed fst snd]. now rewrite tau_eqb.
Qed.
Lemma next_renamed E X : next_opinions c' E (fun j => X (tau j)) = (fun i => next_opinions c (map (renamed tau) E) X (tau i)).
Proof using Hsgt Hbots.
  assert (D : forall Y, drift c' E (fun j => Y (tau j)) = (fun i => drift c (map (renamed tau) E) Y (tau i))).
  { intros Y. apply functional_extensionality. intros i. apply drift_renamed. }
  unfold next_opinions. cbn [cm_dt cm_bots cm_bot_opinion renumbered_model]. cbv zeta. set (h := cm_dt c). set (E' := map (renamed tau) E) in *.
  rewrite (D X). set (k1 := drift c E' X). rewrite (D (fun i => X i + h / 2 * k1 i)). set (k2 := drift c E' (fun i => X i + h / 2 * k1 i)).
  rewrite (D (fun i => X i + h / 2 * k2 i)). set (k3 := drift c E' (fun i => X i + h / 2 * k2 i)). rewrite (D (fun i => X i + h * k3 i)).
  apply functional_extensionality. intros i. specialize (Hbots i). destruct (Nat.ltb_spec (tau i) (cm_bots c)), (Nat.ltb_spec i (cm_bots c)); auto; exfalso; lia.
Qed.
Lemma next_perm E E' X : Permutation E E' -> next_opinions c E X = next_opinions c E' X.
Proof using.
  intros P. assert (D : forall Y, drift c E Y = drift c E' Y).
  { intros Y. apply functional_extensionality. intros i. unfold drift. now rewrite (tot_perm _ _ _ P). }
  unfold next_opinions. cbv zeta. now rewrite !D.
Qed.
Lemma over_contacts_renamed X (G : list (nat * nat) -> R) : (forall e e', Permutation e e' -> G e = G e') ->
  over_contacts c' (fun i => X (tau i)) (fun E => G (map (renamed tau) E)) = over_contacts c X G.
Proof using Hsg Htau.
  intros HG. unfold over_contacts. cbn [cm_n cm_activity cm_homophily cm_contacts cm_reciprocity renumbered_model]. set (n := cm_n c) in *.
  rewrite !(over_rows_keys []) by apply seq_NoDup.
  rewrite <- (over_keys_perm [] _ _ _ (renumbering_perm n sg Hsg)).
  2:{ eapply Permutation_NoDup; [apply Permutation_sym, (renumbering_perm n sg Hsg)|apply seq_NoDup]. }
  rewrite (over_keys_map [] sg tau Htau).
  rewrite (over_keys_values [] (map sg) (fun i => row_law (cm_activity c i) (closeness X (cm_homophily c) i) (cm_contacts c i) n)); auto.
  - apply over_keys_ext. intros h. exact (coins_renamed n sg tau Hsg Htau h (cm_reciprocity c) G HG).
  - intros k Hk. apply in_seq in Hk. rewrite Htau.
    apply (row_law_renamed n sg Hsg). intros j Hj. unfold closeness. rewrite !Htau.
    replace (sg j =? sg k)%nat with (j =? k)%nat; auto. destruct (Nat.eqb_spec j k) as [->|Hne]; symmetry; [apply Nat.eqb_refl|].
    apply Nat.eqb_neq. intros E. apply Hne. rewrite <- (Htau j), <- (Htau k). now rewrite E.
Qed.
Lemma run_mean_renamed f k : forall X, run_mean c' k (fun l => f (old_order 0 sg l)) (fun i => X (tau i)) = run_mean c k f X.
Proof using Hsg Htau Hsgt Hbots.
  induction k as [|k IH]; intros X; cbn [run_mean].
  - cbn [cm_n renumbered_model]. f_equal. unfold old_order. rewrite map_length, seq_length. apply map_ext_in. intros i Hi. apply in_seq in Hi.
    rewrite nth_map_seq by (apply Hsg; lia). now rewrite Htau.
  - rewrite <- (over_contacts_renamed X (fun E => run_mean c k f (next_opinions c E X))).
    + f_equal. apply functional_extensionality. intros E. rewrite next_renamed. apply IH.
    + intros e e' P. now rewrite (next_perm e e' X P).
Qed.
End Numbering.

(** C107 for runs: two models that differ only by the numbering of the agents ([sg], with inverse [tau]; bots remain bots). Every function
    of the opinions after any number of iterations has the same mean, the opinions of the second model being read in the old order. *)
Theorem C107_run_law (lm : Libm EA) (q : PQ EA) (md md' : ad_model (a:=EA) (activity_agent ext)) (c : contact_model) (X : nat -> R) (sg tau : nat -> nat)
  (k : nat) (f : list R -> R) :
  lpow EA lm = epow -> llog EA lm = elog -> (forall x : R, ltanh EA lm (Fin x) = Fin (tanh x)) ->
  pq_bag q -> pq_ordered (a:=EA) (fun x : ext => exists r, x = Fin r) q ->
  ad_ready (a:=EA) md -> ad_ready (a:=EA) md' -> admissible c ->
  renumbering (cm_n c) sg -> (forall i, tau (sg i) = i) -> (forall i, sg (tau i) = i) -> (forall i, (tau i < cm_bots c)%nat <-> (i < cm_bots c)%nat) ->
  described_by md c X -> described_by md' (renumbered_model tau c) (fun i => X (tau i)) ->
  exists v,
    expectation (fun us => of_opinions f (activity_run (a:=EA) lm tape_rng q k md us)) v /\
    expectation (fun us => of_opinions (fun l => f (old_order 0 sg l)) (activity_run (a:=EA) lm tape_rng q k md' us)) v.
Proof.
  intros Hp Hl Ht Hq Ho Hr Hr' Hc Hsg Htau Hsgt Hb HD HD'. exists (run_mean c k f X). split; [now apply C108_run_law|].
  rewrite <- (run_mean_renamed sg tau c Hsg Htau Hsgt Hb f k X). apply C108_run_law; auto.
  destruct Hc as [H1 H2]. split; [exact H1|]. cbn [cm_n cm_activity cm_reluctance cm_contacts renumbered_model]. intros i Hi. apply H2.
  assert (Hin : In i (map sg (seq 0 (cm_n c)))) by (eapply Permutation_in; [apply Permutation_sym, (renumbering_perm _ sg Hsg)|apply in_seq; lia]).
  apply in_map_iff in Hin as (j & <- & Hj). apply in_seq in Hj. rewrite Htau. lia.
Qed.

(** Two bots with different numbers of contacts and homophilies, and two other agents; the numbers of the bots, and those of the others, are exchanged. *)
Definition tanh_libm : Libm EA := mkLibm EA epow elog (fun x => match x with Fin r => Fin (tanh r) | _ => NaN end) (fun x => x) (fun x => x) (fun x => x) (fun x => x).
Definition c108_params : contact_model := mkCM 4 2
  (fun i => match i with 0%nat => 1/2 | 1%nat => 1/4 | 2%nat => 1/3 | _ => 1 end)
  (fun i => match i with 0%nat => 1/5 | 1%nat => 3 | _ => 2 end)
  (fun i => match i with 0 => 1 | 1 => 2 | _ => 3 end%nat) (fun _ => 1) (fun i => match i with 0%nat => 0 | _ => 1 end) (1/3) 3 2 (1/10).
Definition c108_start (i : nat) : R := match i with 0%nat => 0 | 1%nat => 1 | 2%nat => 2 | _ => -3 end.
Definition c108_settings (first : bool) : ad_settings ext :=
  mkADS None (Fin (1/10)) 3 (Fin 0) (Fin 0) (Fin 2) (Fin 2) (Fin (1/3)) (Fin 3) false false 2
    (if first then [1; 2]%Z else [2; 1]%Z) (if first then [Fin (1/2); Fin (1/4)] else [Fin (1/4); Fin (1/2)])
    (if first then [Fin 0; Fin 1] else [Fin 1; Fin 0]) (if first then [Fin (1/5); Fin 3] else [Fin 3; Fin (1/5)])
    false (Fin 1) (Fin 0) (Fin 0) (Fin 0).
Definition c108_model (first : bool) : ad_model (a:=EA) (activity_agent ext) :=
  mkAD (a:=EA) (base_ctor (Some 5%Z)) (c108_settings first) (c107_net first) [].
Lemma c108_ready b : ad_ready (a:=EA) (c108_model b).
Proof.
  destruct (c107_fit b) as (_ & W & D). split; [exact W|]. split; [exact D|]. split.
  - unfold settings_fit, n_agents. destruct b; cbn [m n_bots bot_m bot_homophily c108_settings c108_model ad_set ad_net agents c107_net length]; (split; [lia|]); (split; [lia|]);
      (split; [lia|]); (split; [lia|]); intros [|[|i]] Hi; cbn; lia.
  - split; [destruct b; cbn; lia|]. split; [destruct b; cbn; lia|]. discriminate.
Qed.
Lemma c108_admissible : admissible c108_params.
Proof. split; [cbn; lra|]. intros [|[|[|[|i]]]] Hi; cbn in *; (split; [lra|]); (split; [lra|]); lia. Qed.
Lemma c108_described : described_by (c108_model true) c108_params c108_start.
Proof.
  repeat (split; [reflexivity|]). split; [|split].
  - intros [|[|[|[|i]]]] Hi; cbn in *; try lia; split; reflexivity.
  - intros [|[|i]] Hi; cbn in *; try lia; reflexivity.
  - intros [|[|[|[|i]]]] Hi; cbn in *; try lia; reflexivity.
Qed.
Lemma c108_described' : described_by (c108_model false) (renumbered_model exchange c108_params) (fun i => c108_start (exchange i)).
Proof.
  repeat (split; [reflexivity|]). split; [|split].
  - intros [|[|[|[|i]]]] Hi; cbn in *; try lia; split; reflexivity.
  - intros [|[|i]] Hi; cbn in *; try lia; reflexivity.
  - intros [|[|[|[|i]]]] Hi; cbn in *; try lia; reflexivity.
Qed.
Example C108_instance k f : expectation (fun us => of_opinions f (activity_run (a:=EA) tanh_libm tape_rng (list_pq EA) k (c108_model true) us)) (run_mean c108_params k f c108_start).
Proof.
  apply C108_run_law; auto; [apply list_pq_bag|apply list_pq_ordered|apply c108_ready|apply c108_admissible|apply c108_described].
Qed.
Example C107_run_instance k f : exists v,
  expectation (fun us => of_opinions f (activity_run (a:=EA) tanh_libm tape_rng (list_pq EA) k (c108_model true) us)) v /\
  expectation (fun us => of_opinions (fun l => f (old_order 0 exchange l)) (activity_run (a:=EA) tanh_libm tape_rng (list_pq EA) k (c108_model false) us)) v.
Proof.
  apply (C107_run_law tanh_libm (list_pq EA) (c108_model true) (c108_model false) c108_params c108_start exchange exchange k f); auto;
    [apply list_pq_bag|apply list_pq_ordered|apply c108_ready|apply c108_ready|apply c108_admissible|apply exchange_renumbering|apply exchange_twice|apply exchange_twice| |apply c108_described|apply c108_described'].
  intros [|[|[|[|i]]]]; cbn; lia.
Qed.

Print Assumptions C108_run_law.
Print Assumptions C107_run_law.
