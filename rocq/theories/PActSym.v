(** The network update looks at the agents only through activities and affinities. *)
From Verif Require Import Base BaseFacts Arith64 MRandom SRandom PRandom MDist MNetwork SNetwork PNetwork PNetwork2
  MAgents MDeGroot MActivity SActivity PActStep PActNet PActIter PActMean PActIter2 PActThm.

Definition rmap {X Y} (f : X -> Y) (r : res X) : res Y :=
  match r with Ok x => Ok (f x) | Throw e => Throw e | UB u => UB u | NoFuel => NoFuel end.
Lemma rmap_bind X Y Z (f : Y -> Z) (r : res X) (k : X -> res Y) : rmap f (bind r k) = bind r (fun x => rmap f (k x)).
Proof. destruct r; reflexivity. Qed.
Lemma bind_ext X Y (r : res X) (k1 k2 : X -> res Y) : (forall x, r = Ok x -> k1 x = k2 x) -> bind r k1 = bind r k2.
Proof. intros H. destruct r; cbn; auto. Qed.
Lemma bind_rmap X Y Z (f : X -> Y) (r : res X) (k : Y -> res Z) : bind (rmap f r) k = bind r (fun x => k (f x)).
Proof. destruct r; reflexivity. Qed.

Lemma for_from_equiv S T (Inv : S -> Prop) (f : S -> T) (body : nat -> S -> res S) (body' : nat -> T -> res T) n : forall i s,
  Inv s -> (forall j t, Inv t -> body' j (f t) = rmap f (body j t)) ->
  (forall j t t', Inv t -> body j t = Ok t' -> Inv t') ->
  for_from i n body' (f s) = rmap f (for_from i n body s).
Proof.
  induction n as [|n IH]; intros i s Hs He Hi; cbn [for_from]; auto.
  rewrite He by auto. rewrite bind_rmap, rmap_bind. apply bind_ext. intros x Hx. apply IH; auto. eapply Hi; eauto.
Qed.
Lemma for_each_equiv X S T (Inv : S -> Prop) (f : S -> T) (body : X -> S -> res S) (body' : X -> T -> res T) l : forall s,
  Inv s -> (forall j t, Inv t -> body' j (f t) = rmap f (body j t)) ->
  (forall j t t', Inv t -> body j t = Ok t' -> Inv t') ->
  for_each l body' (f s) = rmap f (for_each l body s).
Proof.
  induction l as [|x l IH]; intros s Hs He Hi; cbn [for_each]; auto.
  rewrite He by auto. rewrite bind_rmap, rmap_bind. apply bind_ext. intros t Ht. apply IH; auto. eapply Hi; eauto.
Qed.

Section Sym.
Context {a : Arith} (lm : Libm a) (g : Rng a) (q : PQ a) {A : Type} (ops : agent_ops (F a) A).
Notation D := (F a).
Notation settings := (ad_settings D).
Notation net := (network A D).
Variables (l l' : list A) (st st' : settings).
Hypothesis Hlen : length l' = length l.
Hypothesis Hact : forall i x x', nth_error l i = Some x -> nth_error l' i = Some x' -> get_activity ops x' = get_activity ops x.
Hypothesis Hhom : forall i j, homophily_weight lm ops st' l' i j = homophily_weight lm ops st l i j.
Hypothesis Hm : forall i, m_of st' i = m_of st i.
Hypothesis Hrec : reciprocity st' = reciprocity st.

Lemma set_const_with (h : net) i c w : set_neighbours_const (with_agents h l') i c w =
  rmap (fun h => with_agents h l') (set_neighbours_const h i c w).
Proof.
  unfold set_neighbours_const. cbn [with_agents neigh wts]. rewrite rmap_bind. apply bind_ext. intros n _.
  rewrite rmap_bind. apply bind_ext. intros ww _. reflexivity.
Qed.
Lemma push_with (h : net) i j w : push_back_neighbour_and_weight (with_agents h l') i j w =
  rmap (fun h => with_agents h l') (push_back_neighbour_and_weight h i j w).
Proof.
  unfold push_back_neighbour_and_weight. cbn [with_agents neigh wts].
  rewrite rmap_bind. apply bind_ext. intros n _. rewrite rmap_bind. apply bind_ext. intros n2 _.
  rewrite rmap_bind. apply bind_ext. intros n3 _. rewrite rmap_bind. apply bind_ext. intros n4 _. reflexivity.
Qed.
Lemma toggle_with (h : net) : agents h = l -> toggle_incoming_outgoing (with_agents h l') =
  rmap (fun h => with_agents h l') (toggle_incoming_outgoing h).
Proof.
  intros Ha. unfold toggle_incoming_outgoing. cbn zeta. rewrite rmap_bind.
  replace (n_agents (with_agents h l')) with (n_agents h) by (unfold n_agents; cbn; congruence).
  apply bind_ext. intros [nt wt] _. reflexivity.
Qed.

Definition lift4 (v : net * list nat * list (nat * nat) * rst g) : net * list nat * list (nat * nat) * rst g :=
  let '(h, c, b, s) := v in (with_agents h l', c, b, s).

Lemma contact_step_with i v : agents (fst (fst (fst v))) = l ->
  contact_step lm g q ops st' i (lift4 v) = rmap lift4 (contact_step lm g q ops st i v).
Proof.
  destruct v as [[[h c] b] s]. cbn [fst lift4]. intros Ha. unfold contact_step.
  destruct (r_real g (f0 a) (f1 a) s) as [u s1]. rewrite Ha. cbn [with_agents agents].
  unfold vget.
  destruct (nth_error l i) as [x|] eqn:Ex.
  2:{ apply nth_error_None in Ex. destruct (nth_error l' i) eqn:Ex'; auto.
      assert (i < length l') by (apply nth_error_Some; congruence). lia. }
  assert (Hi : i < length l) by (apply nth_error_Some; congruence).
  destruct (nth_error l' i) as [x'|] eqn:Ex'. 2:{ apply nth_error_None in Ex'. lia. }
  cbn [bind]. rewrite (Hact i x x' Ex Ex').
  destruct (flt a u (get_activity ops x)).
  - rewrite Hm, rmap_bind. apply bind_ext. intros z _.
    replace (n_agents (with_agents h l')) with (n_agents h) by (unfold n_agents; cbn; congruence).
    rewrite (reservoir_ext lm g q _ _ (homophily_weight lm ops st' l' i) (homophily_weight lm ops st l i)) by auto.
    rewrite rmap_bind. apply bind_ext. intros [c2 s2] _.
    rewrite set_const_with, bind_rmap, rmap_bind. reflexivity.
  - rewrite set_const_with, bind_rmap, rmap_bind. reflexivity.
Qed.

Definition lift2 (v : net * rst g) : net * rst g := (with_agents (fst v) l', snd v).
Lemma push_agents (h h2 : net) i j w : push_back_neighbour_and_weight h i j w = Ok h2 -> agents h2 = agents h.
Proof.
  unfold push_back_neighbour_and_weight. intros E.
  apply bind_ok_inv in E as (? & _ & E). apply bind_ok_inv in E as (? & _ & E).
  apply bind_ok_inv in E as (? & _ & E). apply bind_ok_inv in E as (? & _ & E). inversion E. reflexivity.
Qed.
Lemma reciprocity_step_with B i v : agents (fst v) = l ->
  reciprocity_step g st' B i (lift2 v) = rmap lift2 (reciprocity_step g st B i v).
Proof.
  intros Ha. unfold reciprocity_step. cbn [lift2 fst]. change (get_neighbours (with_agents (fst v) l') i) with (get_neighbours (fst v) i).
  rewrite rmap_bind. apply bind_ext. intros c _.
  apply (for_each_equiv _ _ _ (fun v => agents (fst v) = l)); auto.
  - intros j [h s] _. cbn [lift2 fst snd]. rewrite Hrec.
    destruct (negb (set_contains B (j, i))); auto. destruct (r_real g (f0 a) (f1 a) s) as [u s1].
    destruct (flt a u (reciprocity st)); auto. destruct (j =? i); auto.
    rewrite push_with, bind_rmap, rmap_bind. reflexivity.
  - intros j [h s] [h2 s2] Hh. cbn [fst] in *. destruct (negb (set_contains B (j, i))).
    2:{ intros E. inversion E; subst; auto. }
    destruct (r_real g (f0 a) (f1 a) s) as [u s1].
    destruct (flt a u (reciprocity st)). 2:{ intros E. inversion E; subst; auto. }
    destruct (j =? i); [discriminate|]. intros E. apply bind_ok_inv in E as (h3 & E & E2). inversion E2; subst.
    apply push_agents in E. congruence.
Qed.
Lemma reciprocity_step_agents B i v v' : agents (fst v) = l -> reciprocity_step g st B i v = Ok v' -> agents (fst v') = l.
Proof.
  intros Ha E. unfold reciprocity_step in E. apply bind_ok_inv in E as (c & _ & E). revert v v' Ha E.
  induction c as [|j c IH]; intros [h s] v' Ha E; cbn [for_each] in E; [inversion E; subst; auto|].
  apply bind_ok_inv in E as ([h2 s2] & E1 & E2). apply (IH _ _) in E2; auto. clear E2 IH. cbn [fst] in *.
  destruct (negb (set_contains B (j, i))).
  2:{ inversion E1; subst; auto. }
  destruct (r_real g (f0 a) (f1 a) s) as [u s1].
  destruct (flt a u (reciprocity st)). 2:{ inversion E1; subst; auto. }
  destruct (j =? i); [discriminate|]. apply bind_ok_inv in E1 as (h3 & E & E2). inversion E2; subst.
  apply push_agents in E. congruence.
Qed.

Lemma probabilistic_with (h : net) s : agents h = l ->
  update_network_probabilistic lm g q ops st' (with_agents h l') s =
  rmap lift2 (update_network_probabilistic lm g q ops st h s).
Proof.
  intros Ha. unfold update_network_probabilistic.
  change (switch_direction_flag (with_agents h l')) with (with_agents (switch_direction_flag h) l').
  set (h0 := switch_direction_flag h). assert (Ha0 : agents h0 = l) by exact Ha. clearbody h0. clear h Ha.
  assert (N : forall h : net, agents h = l -> n_agents (with_agents h l') = n_agents h).
  { intros h E. unfold n_agents. cbn. congruence. }
  rewrite N by auto. rewrite rmap_bind.
  change (with_agents h0 l', [], [], s) with (lift4 (h0, [], [], s)).
  pose proof (for_from_equiv _ _ (fun v => agents (fst (fst (fst v))) = l) lift4 (contact_step lm g q ops st) (contact_step lm g q ops st')
     (n_agents h0) 0 (h0, [], [], s) Ha0 (fun j t => contact_step_with j t)
     (fun j t t' Ht Et => eq_trans (contact_step_agents lm g q ops st j t t' Et) Ht)) as E.
  unfold for_n. rewrite E. rewrite bind_rmap. apply bind_ext. intros [[[h1 c1] b1] s1] E1. cbn [lift4].
  assert (Ha1 : agents h1 = l).
  { apply (for_n_partial _ (fun v => agents (fst (fst (fst v))) = l)) in E1; auto.
    intros j t t' _ Ht Et. rewrite (contact_step_agents lm g q ops st j t t' Et). exact Ht. }
  rewrite N by auto. change (with_agents h1 l', s1) with (lift2 (h1, s1)).
  rewrite (for_from_equiv _ _ (fun v => agents (fst v) = l) lift2 (reciprocity_step g st b1) (reciprocity_step g st' b1)
     (n_agents h1) 0 (h1, s1) Ha1 (fun j t => reciprocity_step_with b1 j t) (fun j t t' => reciprocity_step_agents b1 j t t')).
  rewrite bind_rmap, rmap_bind. apply bind_ext. intros [h2 s2] E2. cbn [lift2 fst snd].
  assert (Ha2 : agents h2 = l).
  { apply (for_n_partial _ (fun v => agents (fst v) = l)) in E2; auto.
    intros j t t' _ Ht Et. eapply reciprocity_step_agents; eauto. }
  rewrite toggle_with by auto. rewrite bind_rmap, rmap_bind. reflexivity.
Qed.

End Sym.
