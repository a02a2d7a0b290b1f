(** Consequences of the contact-graph theorem: simplicity, extremes of reciprocity, reuse of contacts. *)
From Verif Require Import Base BaseFacts Arith64 MRandom SRandom PRandom MDist MNetwork SNetwork PNetwork PNetwork2
  MAgents MDeGroot MActivity SActivity PActStep PActNet PReservoir.
From Coq Require Import Permutation.

Lemma for_from_reach S (Inv : S -> Prop) (body : nat -> S -> res S) n : forall i s s',
  Inv s -> (forall j t t', i <= j < i + n -> Inv t -> body j t = Ok t' -> Inv t') ->
  for_from i n body s = Ok s' -> forall j, i <= j < i + n -> exists t t', Inv t /\ body j t = Ok t'.
Proof.
  induction n as [|n IH]; intros i s s' H0 Hs E j Hj; [lia|]. cbn [for_from] in E.
  apply bind_ok_inv in E as (t & E1 & E2).
  destruct (Nat.eq_dec j i) as [->|Hn]; [now exists s, t|].
  apply (IH (Datatypes.S i) t s'); auto; try lia.
  - apply (Hs i s); auto; lia.
  - intros k u u' Hk. apply Hs. lia.
Qed.

Lemma NoDup_app_disj X (l1 l2 : list X) : NoDup l1 -> NoDup l2 -> (forall x, In x l1 -> In x l2 -> False) -> NoDup (l1 ++ l2).
Proof.
  induction l1 as [|x l1 IH]; intros H1 H2 H; cbn; auto. inversion H1; subst. constructor.
  - intros Hx. apply in_app_iff in Hx as [Hx|Hx]; auto. apply (H x); cbn; auto.
  - apply IH; auto. intros y Hy. apply H. cbn. auto.
Qed.

Section Thm.
Context {a : Arith} (lm : Libm a) (g : Rng a) (q : PQ a) {A : Type} (ops : agent_ops (F a) A).
Notation D := (F a).
Notation settings := (ad_settings D).
Notation net := (network A D).

Lemma in_contact_pairs cs i j : In (i, j) (contact_pairs cs) <-> i < length cs /\ In j (nth i cs []).
Proof. exact (in_pairs_upto cs (length cs) (i, j)). Qed.

Lemma contact_pairs_NoDup cs n : Forall (valid n) cs -> NoDup (contact_pairs cs).
Proof.
  intros Hv. unfold contact_pairs.
  assert (G : forall k i, i + k <= length cs ->
    NoDup (flat_map (fun i => map (fun j => (i, j)) (nth i cs [])) (seq i k))).
  { induction k as [|k IH]; intros i Hi; cbn [seq flat_map]; [constructor|].
    apply NoDup_app_disj; [| apply IH; lia |].
    - apply FinFun.Injective_map_NoDup.
      + intros x y E. congruence.
      + rewrite Forall_forall in Hv. apply Hv. apply nth_In. lia.
    - intros e H1 H2. apply in_map_iff in H1 as (x & <- & _).
      apply in_flat_map in H2 as (i' & Hi' & H2). apply in_seq in Hi'.
      apply in_map_iff in H2 as (y & E & _). inversion E. lia. }
  apply G. lia.
Qed.

Lemma reversed_inj p p' : reversed p = reversed p' -> p = p'.
Proof. destruct p, p'. unfold reversed. cbn. congruence. Qed.

Lemma graph_NoDup cs n r s : Forall (valid n) cs ->
  NoDup (contact_pairs cs ++ map reversed (fst (coins g r (one_way cs) s))).
Proof.
  intros Hv. apply NoDup_app_disj.
  - eapply contact_pairs_NoDup; eauto.
  - apply FinFun.Injective_map_NoDup; [exact reversed_inj|]. apply coins_NoDup. apply NoDup_filter.
    eapply contact_pairs_NoDup; eauto.
  - intros [i j] H1 H2. apply in_map_iff in H2 as ([i' j'] & E & H2). unfold reversed in E. cbn in E. inversion E; subst.
    apply coins_incl in H2. apply filter_In in H2 as [H2 H3]. cbn in H3.
    apply in_contact_pairs in H1 as [_ H1]. apply contacted_in in H1. rewrite H1 in H3. discriminate.
Qed.

(** what the relation says about one agent *)
Lemma contacts_at (st : settings) l : forall i0 buf s cs s', contacts_drawn lm g q ops st l i0 buf s cs s' ->
  i0 <= length l -> length cs = length l - i0 /\
  forall i x, i0 <= i -> nth_error l i = Some x -> exists b t u t1,
    r_real g (f0 a) (f1 a) t = (u, t1) /\
    (flt a u (get_activity ops x) = false -> nth (i - i0) cs [] = []) /\
    (flt a u (get_activity ops x) = true -> exists t2,
       reservoir_sampling_A_ExpJ lm g q (contact_count st i) (length l) (fun j => Ok (affinity lm ops st l i j)) b t1
       = Ok (nth (i - i0) cs [], t2)).
Proof.
  intros i0 buf s cs s' H. induction H as [b s|i b s x u s1 c s2 cs s3 E1 E2 E3 E4 H IH|i b s x u s1 cs s2 E1 E2 E3 H IH]; intros Hle.
  - split; [cbn; lia|]. intros i x Hi E. assert (i < length l) by (apply nth_error_Some; congruence). lia.
  - assert (i < length l) by (apply nth_error_Some; congruence). destruct IH as [IH1 IH2]; [lia|]. split; [cbn; lia|].
    intros j y Hj Ey. destruct (Nat.eq_dec j i) as [->|Hn].
    + rewrite E1 in Ey. inversion Ey; subst y. exists b, s, u, s1. split; auto. rewrite Nat.sub_diag. split; [congruence|].
      intros _. now exists s2.
    + destruct (IH2 j y ltac:(lia) Ey) as (b' & t & u' & t1 & P1 & P2 & P3).
      exists b', t, u', t1. replace (j - i) with (Datatypes.S (j - Datatypes.S i)) by lia. auto.
  - assert (i < length l) by (apply nth_error_Some; congruence). destruct IH as [IH1 IH2]; [lia|]. split; [cbn; lia|].
    intros j y Hj Ey. destruct (Nat.eq_dec j i) as [->|Hn].
    + rewrite E1 in Ey. inversion Ey; subst y. exists b, s, u, s1. split; auto. rewrite Nat.sub_diag. split; auto. congruence.
    + destruct (IH2 j y ltac:(lia) Ey) as (b' & t & u' & t1 & P1 & P2 & P3).
      exists b', t, u', t1. replace (j - i) with (Datatypes.S (j - Datatypes.S i)) by lia. auto.
Qed.

(** the buffer the later agents start with *)
Lemma contacts_tail (st : settings) l i buf s cs s' : contacts_drawn lm g q ops st l i buf s cs s' ->
  match cs with
  | [] => i = length l
  | c :: cs' => exists s1, contacts_drawn lm g q ops st l (S i) (if contact_count st i =? 0 then buf else match c with [] => buf | _ => c end) s1 cs' s'
                \/ (contact_count st i <> 0 /\ c = [] /\ contacts_drawn lm g q ops st l (S i) [] s1 cs' s')
  end.
Proof.
  intros H. inversion H; subst; auto.
  - exists s2. destruct (contact_count st i =? 0) eqn:E.
    + apply Nat.eqb_eq in E. left. unfold reservoir_sampling_A_ExpJ in H3. rewrite E in H3. cbn in H3. inversion H3; subst. auto.
    + destruct c; [right|left]; auto. apply Nat.eqb_neq in E. auto.
  - exists s1. left. destruct (contact_count st i =? 0); auto.
Qed.

(** An active agent with contact count 0 repeats the last contacts made. *)
Lemma reuse_from (st : settings) l j y : pq_bag q -> settings_fit st (length l) ->
  nth_error l j = Some y -> contact_count st j = 0 ->
  (forall s, flt a (fst (r_real g (f0 a) (f1 a) s)) (get_activity ops y) = true) ->
  forall i buf s cs s', contacts_drawn lm g q ops st l i buf s cs s' -> i <= j -> valid (length l) buf ->
  (forall k, i <= k < j -> nth (k - i) cs [] = []) -> buf <> [] -> nth (j - i) cs [] = buf.
Proof.
  intros Hq Hf Ey H0 Ha. intros i buf s cs s' H.
  induction H as [b s|i b s x u s1 c s2 cs s3 E1 E2 E3 E4 H IH|i b s x u s1 cs s2 E1 E2 E3 H IH]; intros Hi Hb Hk Hne.
  - assert (j < length l) by (apply nth_error_Some; congruence). lia.
  - assert (Hil : i < length l) by (apply nth_error_Some; congruence).
    destruct (sample_valid lm g q ops st l i b s1 Hq Hf Hil Hb) as (c' & s' & Ec & V1 & V2 & V3).
    rewrite E4 in Ec. inversion Ec; subst c' s'.
    destruct (Nat.eq_dec i j) as [->|Hn].
    + rewrite Nat.sub_diag. cbn. auto.
    + pose proof (Hk i ltac:(lia)) as Hc. rewrite Nat.sub_diag in Hc. cbn in Hc. subst c.
      destruct (Nat.eq_dec (contact_count st i) 0) as [E|E].
      * exfalso. apply Hne. symmetry. auto.
      * specialize (V2 E). cbn in V2. lia.
  - destruct (Nat.eq_dec i j) as [->|Hn].
    + rewrite Ey in E1. inversion E1; subst y. specialize (Ha s). rewrite E2 in Ha. cbn in Ha. congruence.
    + replace (j - i) with (Datatypes.S (j - Datatypes.S i)) by lia. cbn [nth]. apply IH; auto; try lia.
      intros k Hk'. specialize (Hk k ltac:(lia)). replace (k - i) with (Datatypes.S (k - Datatypes.S i)) in Hk by lia. exact Hk.
Qed.

Lemma reuse (st : settings) l i j y : pq_bag q -> settings_fit st (length l) ->
  nth_error l j = Some y -> contact_count st j = 0 ->
  (forall s, flt a (fst (r_real g (f0 a) (f1 a) s)) (get_activity ops y) = true) ->
  forall i0 buf s cs s', contacts_drawn lm g q ops st l i0 buf s cs s' -> i0 <= i < j -> valid (length l) buf ->
  nth (i - i0) cs [] <> [] -> (forall k, i < k < j -> nth (k - i0) cs [] = []) ->
  nth (j - i0) cs [] = nth (i - i0) cs [].
Proof.
  intros Hq Hf Ey H0 Ha i0 buf s cs s' H.
  induction H as [b s|i0 b s x u s1 c s2 cs s3 E1 E2 E3 E4 H IH|i0 b s x u s1 cs s2 E1 E2 E3 H IH]; intros Hi Hb Hne Hk.
  - now rewrite nth_overflow in Hne by (cbn; lia).
  - assert (Hil : i0 < length l) by (apply nth_error_Some; congruence).
    destruct (sample_valid lm g q ops st l i0 b s1 Hq Hf Hil Hb) as (c' & s' & Ec & V1 & V2 & V3).
    rewrite E4 in Ec. inversion Ec; subst c' s'.
    destruct (Nat.eq_dec i i0) as [->|Hn].
    + rewrite Nat.sub_diag in *. cbn [nth] in *. replace (j - i0) with (Datatypes.S (j - Datatypes.S i0)) by lia. cbn [nth].
      eapply reuse_from; eauto; try lia.
      intros k Hk'. specialize (Hk k ltac:(lia)). replace (k - i0) with (Datatypes.S (k - Datatypes.S i0)) in Hk by lia. exact Hk.
    + replace (j - i0) with (Datatypes.S (j - Datatypes.S i0)) by lia.
      replace (i - i0) with (Datatypes.S (i - Datatypes.S i0)) in * by lia. cbn [nth] in *. apply IH; auto; try lia.
      intros k Hk'. specialize (Hk k ltac:(lia)). replace (k - i0) with (Datatypes.S (k - Datatypes.S i0)) in Hk by lia. exact Hk.
  - destruct (Nat.eq_dec i i0) as [->|Hn].
    + rewrite Nat.sub_diag in Hne. cbn in Hne. congruence.
    + assert (Hil : i0 < length l) by (apply nth_error_Some; congruence).
      replace (j - i0) with (Datatypes.S (j - Datatypes.S i0)) by lia.
      replace (i - i0) with (Datatypes.S (i - Datatypes.S i0)) in * by lia. cbn [nth] in *. apply IH; auto; try lia.
      intros k Hk'. specialize (Hk k ltac:(lia)). replace (k - i0) with (Datatypes.S (k - Datatypes.S i0)) in Hk by lia. exact Hk.
Qed.

(** reciprocity extremes *)
Lemma coins_none r : (forall s, flt a (fst (r_real g (f0 a) (f1 a) s)) r = false) ->
  forall ps s, fst (coins g r ps s) = [].
Proof.
  intros H. induction ps as [|p ps IH]; intros s; cbn [coins]; auto.
  specialize (H s). destruct (r_real g (f0 a) (f1 a) s) as [u s1]. cbn in H. specialize (IH s1).
  destruct (coins g r ps s1). cbn in *. rewrite H. exact IH.
Qed.
Lemma coins_all r : (forall s, flt a (fst (r_real g (f0 a) (f1 a) s)) r = true) ->
  forall ps s, fst (coins g r ps s) = ps.
Proof.
  intros H. induction ps as [|p ps IH]; intros s; cbn [coins]; auto.
  specialize (H s). destruct (r_real g (f0 a) (f1 a) s) as [u s1]. cbn in H. specialize (IH s1).
  destruct (coins g r ps s1). cbn in *. rewrite H. cbn. now rewrite IH.
Qed.

(** an active agent that wants more contacts than there are agents *)
Lemma contact_step_agents (st : settings) i v v' : contact_step lm g q ops st i v = Ok v' ->
  agents (fst (fst (fst v'))) = agents (fst (fst (fst v))).
Proof.
  destruct v as [[[h buf] B] s]. unfold contact_step. destruct (r_real g (f0 a) (f1 a) s) as [u s1].
  intros E. apply bind_ok_inv in E as (x & _ & E).
  assert (G : forall hh c w h2, set_neighbours_const (W:=D) (A:=A) hh i c w = Ok h2 -> agents h2 = agents hh).
  { intros hh c w h2 Eh. unfold set_neighbours_const in Eh. apply bind_ok_inv in Eh as (n1 & _ & Eh).
    apply bind_ok_inv in Eh as (w1 & _ & Eh). inversion Eh. reflexivity. }
  destruct (flt a u (get_activity ops x)).
  - apply bind_ok_inv in E as (mm & _ & E). apply bind_ok_inv in E as ([c s2] & _ & E).
    apply bind_ok_inv in E as (h2 & Eh & E). inversion E; subst. cbn. now apply G in Eh.
  - apply bind_ok_inv in E as (h2 & Eh & E). inversion E; subst. cbn. now apply G in Eh.
Qed.

Lemma too_many_contacts (st : settings) (h : net) s i x z : pq_bag q ->
  n_bots st <= length (bot_homophily st) ->
  nth_error (agents h) i = Some x ->
  (forall t, flt a (fst (r_real g (f0 a) (f1 a) t)) (get_activity ops x) = true) ->
  m_of st i = Ok z -> n_agents h < Z.to_nat (to_size_t z) ->
  forall r, update_network_probabilistic lm g q ops st h s <> Ok r.
Proof.
  intros Hq Hbh Ex Ha Em Hn r E. unfold update_network_probabilistic in E.
  apply bind_ok_inv in E as (v & E & _).
  assert (Hi : i < n_agents h) by (apply nth_error_Some; congruence).
  unfold for_n in E.
  apply (for_from_reach _ (fun v => agents (fst (fst (fst v))) = agents h)) with (j := i) in E.
  2: reflexivity. 3: (change (n_agents (switch_direction_flag h)) with (n_agents h); lia).
  2: { intros j t t' _ Ht Et. apply contact_step_agents in Et. cbn in *. congruence. }
  destruct E as ([[[h1 b] B] t] & v' & Ht & E). cbn in Ht.
  unfold contact_step in E. specialize (Ha t). destruct (r_real g (f0 a) (f1 a) t) as [u t1]. cbn in Ha.
  rewrite Ht in E. unfold vget in E at 1. rewrite Ex in E. cbn [bind] in E. rewrite Ha, Em in E. cbn [bind] in E.
  rewrite (reservoir_ub lm g q Hq (homophily_weight lm ops st (agents h) i) (n_agents h1)) in E.
  - discriminate.
  - intros j Hj. replace (n_agents h1) with (n_agents h) in Hj by (unfold n_agents; congruence).
    unfold homophily_weight. destruct (j =? i); [exact I|]. rewrite bot_guard.
    replace (if i <? n_bots st then vget (bot_homophily st) i else Ok (homophily st)) with (Ok (homophily_of st i)).
    2:{ unfold homophily_of. destruct (Nat.ltb_spec i (n_bots st)); auto. symmetry. apply vget_lt. lia. }
    cbn [bind]. unfold opinion_at, vget. rewrite Ex. cbn [bind].
    destruct (nth_error (agents h) j) eqn:Ej. { cbn. exact I. } apply nth_error_None in Ej. unfold n_agents in Hj. lia.
  - replace (n_agents h1) with (n_agents h) by (unfold n_agents; congruence). exact Hn.
Qed.
End Thm.
