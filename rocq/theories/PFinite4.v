(** Whole iterations and runs in double precision. *)
From Coq Require Import Reals Lra Psatz.
From Flocq Require Import Core.Core IEEE754.BinarySingleNaN.
From Verif Require Import Base BaseFacts Arith64 RFacts MRandom SRandom PRandom MDist MNetwork SNetwork MAgents MDeGroot MActivity SActivity PActStep PActNet PActIter PActMean PActIter2 PActThm TActivity
  SRelax PRelax PFloat SRounding SFinite PRounding PRounding4 PFinite PFinite2 PFinite3.
Local Open Scope R_scope.

Section Iteration.
Context (lm : Libm FA) (g : Rng FA) (q : PQ FA).
Hypothesis Hq : pq_bag q.
Hypothesis Ht : tanh_bounded lm.

Lemma iteration_bounded (md : ad_model (a:=FA) (activity_agent double)) s d W M : ad_ready md -> moderate_state md W M -> row_limits d W ->
  (forall h cpl s', update_network lm g q act (ad_set md) (ad_net md) (contact_prob_list md) s = Ok (h, cpl, s') -> weight_rows h d W) ->
  exists md' s', activity_iteration lm g q md s = Ok (md', s') /\ ad_ready md' /\ moderate_state md' W M /\ ad_set md' = ad_set md /\ n_agents (ad_net md') = n_agents (ad_net md).
Proof using Hq Ht.
  intros Hr (S1 & S2 & S3 & S4 & S5) (D1 & D2) Hu.
  destruct (activity_iteration_ok (a:=FA) lm g q md s Hq Hr) as (md' & s' & h & cpl & E & R' & U & ES & _ & _ & _ & _ & EA & Hw & EO & _ & ER).
  exists md', s'. split; [exact E|]. split; [exact R'|].
  pose proof Hr as (_ & _ & _ & B1 & B2 & _).
  assert (X : Forall (small_finite M) (rk4_step (a:=FA) (field lm act (ad_set md) h) (dt (ad_set md)) (map a_opinion (agents (ad_net md))))).
  { apply (rk4_bounded lm (ad_set md) h d W M); try assumption.
    - match goal with |- Forall _ ?l => replace l with (agents (ad_net md)) by (symmetry; exact EA) end. exact S2.
    - intros i Hi. apply (Hu h cpl s' U i Hi).
    - rewrite map_length. unfold n_agents. f_equal. symmetry. exact EA.
    - apply Forall_map. exact S3. }
  assert (LX : length (rk4_step (a:=FA) (field lm act (ad_set md) h) (dt (ad_set md)) (map a_opinion (agents (ad_net md)))) = n_agents (ad_net md)).
  { unfold rk4_step. rewrite map_length, seq_length, map_length. reflexivity. }
  assert (NA : n_agents (ad_net md') = n_agents (ad_net md)).
  { unfold n_agents. pose proof (f_equal (@length _) ER) as L. rewrite !map_length in L. exact L. }
  split; [|split; [exact ES|exact NA]]. change (@ad_set FA (activity_agent double) md' = @ad_set FA (activity_agent double) md) in ES. unfold moderate_state. rewrite ES. split; [exact S1|]. split; [|split; [|split; [exact S4|exact S5]]].
  - assert (G : Forall (fun r => finite_double r /\ / 2 ^ 100 <= value r <= 2 ^ 100 /\ 4 * Rabs (value (K (ad_set md))) * W <= value r * M) (map a_reluctance (agents (ad_net md')))).
    { match type of ER with ?l = _ => match goal with |- Forall _ ?l' => change (l' = map a_reluctance (agents (ad_net md))) in ER end end. rewrite ER. apply Forall_map. eapply Forall_impl; [|exact S2]. intros x ((A1 & A2) & A3). split; [exact A1|]. split; [exact A2|exact A3]. }
    apply Forall_map in G. eapply Forall_impl; [|exact G]. intros x (A1 & A2 & A3). split; [split; [exact A1|exact A2]|exact A3].
  - apply Forall_map. match goal with |- Forall _ ?l => replace l with (with_bots (ad_set md) (rk4_step (a:=FA) (field lm act (ad_set md) h) (dt (ad_set md)) (map a_opinion (agents (ad_net md))))) by (symmetry; exact EO) end.
    unfold with_bots. apply Forall_forall. intros z Hz. apply in_map_iff in Hz as (i & <- & Hi). apply in_seq in Hi. rewrite Forall_forall in S4, X.
    destruct (Nat.ltb_spec i (n_bots (ad_set md))) as [Hb|Hb]; [apply S4, nth_In; lia|apply X, nth_In; exact (proj2 Hi)].
Qed.

Lemma NoDup_flat_map_in {X Y : Type} (f : X -> list Y) l x : NoDup (flat_map f l) -> In x l -> NoDup (f x).
Proof using.
  induction l as [|y l IH]; intros Hn Hx; [destruct Hx|]. cbn [flat_map] in Hn. destruct Hx as [->|Hx].
  - clear -Hn. induction (f x) as [|z r IH]; constructor; cbn in Hn; inversion Hn; subst; auto. intros Hz. apply H1. apply in_or_app. now left.
  - apply IH; [|exact Hx]. clear -Hn. induction (f y) as [|z r IH]; [exact Hn|]. cbn in Hn. inversion Hn; auto.
Qed.

Lemma ones_sum (l : list float) : Forall (fun w => w = (f1 FA : float)) l -> Rsum (map Rabs (values l)) <= INR (length l).
Proof using.
  destruct (b64_exact 1 ltac:(lia)) as (V1 & _). change (b64_of_Z 1) with (f1 FA : float) in V1.
  intros A1. induction A1 as [|w l Ew A1 IH]; [change (Rsum [] <= 0); rewrite Rsum_nil; lra|].
  change (length (w :: l)) with (S (length l)). rewrite S_INR. change (map Rabs (values (w :: l))) with (Rabs (value w) :: map Rabs (values l)). rewrite Rsum_cons, Ew, V1, Rabs_R1. lra.
Qed.
(** The contact network of one iteration has rows of distinct neighbours with weights 1. *)
Lemma contact_rows (h : network (activity_agent (F FA)) (F FA)) : wf h -> dir h = Incoming -> NoDup (map fst (edges h)) -> (forall e, In e (edges h) -> snd e = f1 FA) ->
  weight_rows h (n_agents h) (INR (n_agents h)).
Proof using.
  intros (W1 & W2 & W3 & W4) Hd Hn H1 i Hi. pose proof (W3 i Hi) as L3.
  assert (In i (seq 0 (length (neigh h)))) as Hin by (apply in_seq; rewrite W1; split; [lia|exact Hi]).
  assert (N : NoDup (nth i (neigh h) [])).
  { unfold edges in Hn. rewrite Hd in Hn.
    assert (E : map fst (flat_map (fun i => map (fun p => (fst p, i, snd p)) (row h i)) (seq 0 (length (neigh h)))) = flat_map (fun i => map (fun p => (fst p, i)) (row h i)) (seq 0 (length (neigh h)))).
    { generalize (seq 0 (length (neigh h))) as l. induction l as [|j l IH]; [reflexivity|]. cbn [flat_map]. rewrite map_app, IH, map_map. reflexivity. }
    rewrite E in Hn. apply (NoDup_flat_map_in _ _ i) in Hn; [|exact Hin].
    assert (N2 : NoDup (map fst (row h i))).
    { apply (NoDup_map_inv (fun n : nat => (n, i))). rewrite map_map. exact Hn. }
    unfold row in N2. assert (C : forall (ns : list nat) (ws : list (F FA)), length ns = length ws -> map fst (combine ns ws) = ns).
    { induction ns as [|n ns IH]; intros [|w ws] HL; try discriminate; [reflexivity|]. cbn. f_equal. apply IH. now injection HL. }
    rewrite (C _ _ L3) in N2. exact N2. }
  assert (LN : (length (nth i (neigh h) []) <= n_agents h)%nat).
  { replace (n_agents h) with (length (seq 0 (n_agents h))) by apply seq_length. apply NoDup_incl_length; [exact N|]. intros j Hj. apply in_seq. split; [lia|]. exact (W4 i j Hj). }
  assert (A1 : Forall (fun w => w = f1 FA) (nth i (wts h) [])).
  { apply Forall_forall. intros w Hw. apply In_nth_error in Hw as (k & Ek).
    assert (Hk : (k < length (nth i (neigh h) []))%nat) by (rewrite L3; apply nth_error_Some; congruence).
    destruct (nth_error (nth i (neigh h) []) k) as [n|] eqn:En; [|apply nth_error_None in En; exfalso; apply (Nat.lt_irrefl k); eapply Nat.lt_le_trans; [exact Hk|exact En]].
    apply (H1 (n, i, w)). unfold edges. apply in_flat_map. exists i. split; [exact Hin|]. rewrite Hd. apply in_map_iff. exists (n, w). split; [reflexivity|].
    apply nth_error_In with k. unfold row. rewrite nth_error_combine, En, Ek. reflexivity. }
  destruct (b64_exact 1 ltac:(lia)) as (V1 & F1 & _).
  split; [eapply Nat.le_trans; [apply Nat.eq_le_incl; symmetry; exact L3|exact LN]|]. split.
  - eapply Forall_impl; [|exact A1]. intros w ->. exact F1.
  - apply Rle_trans with (INR (length (nth i (wts h) []))); [|apply le_INR; eapply Nat.le_trans; [apply Nat.eq_le_incl; symmetry; exact L3|exact LN]].
    exact (ones_sum _ A1).
Qed.
End Iteration.
