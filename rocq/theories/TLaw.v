(** Property theorems C87-C91: the laws of the discrete random choices. *)
From Verif Require Import Base BaseFacts Arith64 MRandom SRandom PRandom RFacts TRandom SProb SProb2 PProb PProb10 SLaw PLaw PLaw2 PLaw3 PLaw4 PLaw5 PLaw6
  MNetwork SNetwork PNetwork2 MNetGen PNetGen MAgents MDeGroot SDeGroot MDeffuant SDeffuant TDeffuant.
From Coq Require Import Reals Lra Lia Psatz Sorting.Sorted.
Local Open Scope R_scope.

(** The generator fulfils the contracts of the C++ library that the other theorems assume. *)
Lemma uni_contracts : sample_ok uni_rng /\ int_ok uni_rng /\ real_ok uni_rng.
Proof. split; [apply uni_sample_ok|]. split; [apply uni_int_ok|apply uni_real_ok]. Qed.

(** ** Indicators *)
Lemma nodup_app {A} (l l' : list A) : NoDup l -> NoDup l' -> (forall x, In x l -> ~ In x l') -> NoDup (l ++ l').
Proof.
  intros H1 H2 Hd. induction H1 as [|x l Hx H1 IH]; cbn [app]; auto. constructor.
  - intros H. apply in_app_or in H as [H|H]; [contradiction|]. apply (Hd x); [now left|auto].
  - apply IH. intros y Hy. apply Hd. now right.
Qed.
Lemma mean_indicator {A} (dec : forall x y : A, {x = y} + {x <> y}) (l : list A) y : NoDup l -> In y l ->
  mean_of (fun x => if dec x y then 1 else 0) l = / INR (length l).
Proof.
  intros ND Hy. assert (E : total (fun x => if dec x y then 1 else 0) l = 1).
  { induction ND as [|x l Hx ND IH]; [destruct Hy|].
    change (total (fun x => if dec x y then 1 else 0) (x :: l)) with ((if dec x y then 1 else 0) + total (fun x => if dec x y then 1 else 0) l).
    destruct (dec x y) as [->|Hne].
    - rewrite (total_ext _ (fun _ => 0)); [rewrite total_const; ring|]. intros z Hz. destruct (dec z y) as [->|]; [contradiction|reflexivity].
    - destruct Hy as [->|Hy]; [congruence|]. rewrite IH by auto. ring. }
  unfold mean_of. rewrite E. unfold Rdiv. ring.
Qed.
Lemma mean_indicator_out {A} (dec : forall x y : A, {x = y} + {x <> y}) (l : list A) y : ~ In y l ->
  mean_of (fun x => if dec x y then 1 else 0) l = 0.
Proof.
  intros Hy. unfold mean_of. rewrite (total_ext _ (fun _ => 0)); [rewrite total_const; unfold Rdiv; ring|].
  intros z Hz. destruct (dec z y) as [->|]; [contradiction|reflexivity].
Qed.
Lemma sublists_in {A} (l : list A) : forall k p, In p (sublists k l) -> length p = k /\ incl p l.
Proof.
  induction l as [|x l IH]; intros [|k] p Hp; cbn [sublists] in Hp; try (destruct Hp as [<-|[]]; split; [reflexivity|intros y []]); try destruct Hp.
  apply in_app_or in Hp as [Hp|Hp].
  - apply in_map_iff in Hp as (q & <- & Hq). apply IH in Hq as [<- Hq]. split; auto. intros y [<-|Hy]; [now left|right; auto].
  - apply IH in Hp as [H1 H2]. split; auto. intros y Hy. right. auto.
Qed.
Lemma sublists_nodup {A} (l : list A) : NoDup l -> forall k, NoDup (sublists k l).
Proof.
  induction 1 as [|x l Hx ND IH]; intros [|k]; cbn [sublists]; try (repeat constructor; auto; fail).
  apply nodup_app.
  - apply FinFun.Injective_map_NoDup; auto. intros a b E. now injection E.
  - apply IH.
  - intros p Hp Hq. apply in_map_iff in Hp as (q & <- & _). apply sublists_in in Hq as [_ Hq]. apply Hx. apply Hq. now left.
Qed.
Lemma sublists_sorted (l : list nat) : StronglySorted lt l -> forall p, StronglySorted lt p -> incl p l -> In p (sublists (length p) l).
Proof.
  induction 1 as [|x l Hl IH Hx]; intros p Hp Hi.
  - destruct p as [|y p]; [now left|]. destruct (Hi y (or_introl eq_refl)).
  - destruct p as [|y p]; [now left|]. cbn [length sublists]. apply in_or_app. inversion Hp as [|? ? Hp' Hy]; subst.
    rewrite Forall_forall in Hx, Hy. destruct (Hi y (or_introl eq_refl)) as [<-|Hyl].
    + left. apply in_map. apply IH; auto. intros z Hz. destruct (Hi z (or_intror Hz)) as [<-|]; auto. specialize (Hy _ Hz). lia.
    + right. specialize (IH (y :: p) Hp). apply IH. intros z Hz. destruct (Hi z Hz) as [<-|]; auto.
      specialize (Hx _ Hyl). destruct Hz as [->|Hz]; [lia|]. specialize (Hy _ Hz). lia.
Qed.
Lemma products_in {A} (ls : list (list A)) : forall p, In p (products ls) <-> Forall2 (fun x l => In x l) p ls.
Proof.
  induction ls as [|l ls IH]; intros p; cbn [products].
  - split; [intros [<-|[]]; constructor|]. intros H. inversion H. now left.
  - rewrite in_flat_map. split.
    + intros (x & Hx & H). apply in_map_iff in H as (q & <- & Hq). constructor; auto. now apply IH.
    + intros H. inversion H as [|x ? q ? Hx Hq]; subst. exists x. split; auto. apply in_map. now apply IH.
Qed.
Lemma products_nodup {A} (ls : list (list A)) : (forall l, In l ls -> NoDup l) -> NoDup (products ls).
Proof.
  induction ls as [|l ls IH]; intros H; cbn [products]; [constructor; [intros []|constructor]|].
  assert (ND := H l (or_introl eq_refl)). assert (NP : NoDup (products ls)) by (apply IH; intros; apply H; now right). clear H IH.
  induction ND as [|x l Hx ND IH]; cbn [flat_map]; [constructor|]. apply nodup_app; auto.
  - apply FinFun.Injective_map_NoDup; auto. intros a b E. now injection E.
  - intros p Hp Hq. apply in_map_iff in Hp as (q & <- & _). apply in_flat_map in Hq as (y & Hy & Hq). apply in_map_iff in Hq as (r & E & _). injection E as -> _. contradiction.
Qed.
Lemma products_count {A} (ls : list (list A)) c : (forall l, In l ls -> INR (length l) = c) -> INR (length (products ls)) = c ^ length ls.
Proof.
  induction ls as [|l ls IH]; intros H; [reflexivity|]. rewrite products_length, mult_INR. cbn [length pow]. rewrite (H l) by now left.
  rewrite IH by (intros; apply H; now right). reflexivity.
Qed.

(** ** C87 *)
(** C87. Every selection of [k] different eligible indices (in increasing order) is drawn with the same
    probability, one in "number of eligible indices choose k". *)
Theorem C87_every_selection_is_equally_likely ignore_idx k n buffer (L : list nat) :
  StronglySorted lt L -> length L = k -> (forall i, In i L -> (i < n)%nat /\ ignore_idx <> Some i) ->
  expectation (fun us => of_output (fun out => same out L) (draw_unique_k_from_n uni_rng ignore_idx k n buffer us))
    (/ Binomial.C (population_size ignore_idx n) k).
Proof.
  intros HS <- HI. set (el := filter (fun i => match ignore_idx with Some x => negb (i =? x)%nat | None => true end) (seq 0 n)).
  assert (HL : length el = population_size ignore_idx n) by exact (length_admissible ignore_idx n).
  assert (HE : StronglySorted lt el) by exact (admissible_sorted ignore_idx n).
  assert (Hin : incl L el) by (intros i Hi; apply (admissible_in ignore_idx n i); auto).
  assert (Hk : (length L <= length el)%nat).
  { apply NoDup_incl_length; auto. clear -HS. induction HS as [|x l Hl IH Hx]; constructor; auto. rewrite Forall_forall in Hx. intros H. specialize (Hx _ H). lia. }
  assert (ND : NoDup el).
  { clear -HE. induction HE as [|x l Hl IH Hx]; constructor; auto. rewrite Forall_forall in Hx. intros H. specialize (Hx _ H). lia. }
  pose proof (law_expectation _ _ _ _ _ (fun out => same out L) (draw_law ignore_idx (length L) n buffer Hk)) as G. cbv beta in G. fold el in G.
  unfold same in G. rewrite (mean_indicator (list_eq_dec Nat.eq_dec)) in G; [|now apply sublists_nodup|now apply sublists_sorted].
  rewrite sublists_count, HL in G by auto. exact G.
Qed.
(** C87. ... and nothing else is ever drawn: the expectation of any quantity is its mean over these
    selections. *)
Theorem C87_expectation ignore_idx k n buffer (f : list nat -> R) :
  let eligible := filter (fun i => match ignore_idx with Some x => negb (i =? x)%nat | None => true end) (seq 0 n) in
  (k <= length eligible)%nat ->
  expectation (fun us => of_output f (draw_unique_k_from_n uni_rng ignore_idx k n buffer us)) (mean_of f (sublists k eligible)).
Proof. intros el Hk. exact (law_expectation _ _ _ _ _ f (draw_law ignore_idx k n buffer Hk)). Qed.
(** C87. The network that generate_n_connections generates: every assignment of [k] other agents (in
    increasing order, followed by the agent itself if self_interaction is on) to every agent has the
    same probability. *)
Theorem C87_every_network_is_equally_likely {A} (d : A) n k (self : bool) (rows : list (list nat)) : (k < n)%nat ->
  length rows = n ->
  (forall i row, nth_error rows i = Some row -> exists L, row = L ++ (if self then [i] else []) /\
     length L = k /\ StronglySorted lt L /\ forall j, In j L -> (j < n)%nat /\ j <> i) ->
  expectation (fun us => of_result (fun G : network A R => same_rows (neigh G) rows) (generate_n_connections (a:=RA) uni_rng d n k self us))
    ((/ Binomial.C (n - 1) k) ^ n).
Proof.
  intros Hk HL HR. pose proof (generated_law d n k self Hk (fun nl => same_rows nl rows)) as G. unfold same_rows in G.
  assert (HC : forall l, In l (map (row_choices self n k) (seq 0 n)) -> NoDup l /\ INR (length l) = Binomial.C (n - 1) k).
  { intros l Hl. apply in_map_iff in Hl as (i & <- & Hi). apply in_seq in Hi. unfold row_choices. split.
    - apply FinFun.Injective_map_NoDup; [intros a b E; now apply app_inv_tail in E|]. apply sublists_nodup. apply NoDup_filter, seq_NoDup.
    - rewrite map_length, sublists_count by (rewrite (others_length n i) by lia; lia). now rewrite (others_length n i) by lia. }
  rewrite (mean_indicator (list_eq_dec (list_eq_dec Nat.eq_dec))) in G.
  - rewrite (products_count _ (Binomial.C (n - 1) k)) in G by (intros l Hl; now apply HC). rewrite map_length, seq_length in G.
    rewrite pow_inv. exact G.
  - apply products_nodup. intros l Hl. now apply HC.
  - apply products_in. clear G HC.
    assert (Gn : forall m i rs, length rs = m -> (forall j row, nth_error rs j = Some row -> In row (row_choices self n k (i + j))) ->
       Forall2 (fun x l => In x l) rs (map (row_choices self n k) (seq i m))).
    { induction m as [|m IH]; intros i [|r rs] Hl Hr; cbn [length] in Hl; try lia; cbn [seq map]; constructor.
      - specialize (Hr 0%nat r eq_refl). now rewrite Nat.add_0_r in Hr.
      - apply IH; [lia|]. intros j row Hj. specialize (Hr (S j) row Hj). now replace (S i + j)%nat with (i + S j)%nat by lia. }
    apply Gn; auto. intros i row Hi. cbn [Nat.add]. destruct (HR i row Hi) as (L & -> & HLk & HS & HI). unfold row_choices.
    apply (in_map (fun r => r ++ (if self then [i] else []))). subst k. apply sublists_sorted; auto.
    + exact (admissible_sorted (Some i) n).
    + intros j Hj. unfold others. apply filter_In. destruct (HI j Hj) as [H1 H2]. split; [apply in_seq; lia|]. now rewrite (proj2 (Nat.eqb_neq _ _) H2).
Qed.

(** ** C88 *)
(** C88. Without a network every pair of agents is selected with the same probability, in increasing
    order. *)
Theorem C88_pair_without_network {A} (net : network A R) i j : (i < j < n_agents net)%nat ->
  expectation (fun us => of_output (fun out => same out [i; j]) (select_interacting_agent_pair (a:=RA) uni_rng false net us))
    (2 / (INR (n_agents net) * (INR (n_agents net) - 1))).
Proof.
  intros H. pose proof (law_expectation _ _ _ _ _ (fun out => same out [i; j]) (pair_law net ltac:(lia))) as G. cbv beta in G. unfold same in G.
  rewrite (mean_indicator (list_eq_dec Nat.eq_dec)) in G.
  - rewrite pairs_number in G by lia. replace (2 / (INR (n_agents net) * (INR (n_agents net) - 1))) with (/ (INR (n_agents net) * (INR (n_agents net) - 1) / 2)); [exact G|].
    assert (1 < INR (n_agents net)) by (apply (lt_INR 1); lia). field. lra.
  - apply sublists_nodup, seq_NoDup.
  - apply (sublists_sorted (seq 0 (n_agents net))).
    + assert (Q : forall m s, StronglySorted lt (seq s m)).
      { induction m as [|m IH]; intros s; cbn [seq]; constructor; auto. apply Forall_forall. intros x Hx. apply in_seq in Hx. lia. }
      apply Q.
    + constructor; [constructor; constructor|]. constructor; [lia|constructor].
    + intros x [<-|[<-|[]]]; apply in_seq; lia.
Qed.
(** C88. The agent with the larger number is never the first one of the pair. *)
Theorem C88_larger_first_never {A} (net : network A R) i j : (2 <= n_agents net)%nat -> (j <= i)%nat ->
  expectation (fun us => of_output (fun out => same out [i; j]) (select_interacting_agent_pair (a:=RA) uni_rng false net us)) 0.
Proof.
  intros H2 H. pose proof (law_expectation _ _ _ _ _ (fun out => same out [i; j]) (pair_law net H2)) as G. cbv beta in G. unfold same in G.
  rewrite (mean_indicator_out (list_eq_dec Nat.eq_dec)) in G; [exact G|].
  intros Hin. apply pair_in_seq in Hin as (i' & j' & E & H3 & H4). injection E as -> ->. lia.
Qed.
(** C88. With a network the first agent is any agent with the same probability, and the second any
    entry of its list of neighbours with the same probability. *)
Theorem C88_pair_with_network {A} (net : network A R) i j : @can_select RA A true net -> (i < n_agents net)%nat ->
  expectation (fun us => of_output (fun out => same out [i; j]) (select_interacting_agent_pair (a:=RA) uni_rng true net us))
    (/ INR (n_agents net) * (INR (count_occ Nat.eq_dec (nth i (neigh net) []) j) / INR (length (nth i (neigh net) [])))).
Proof.
  intros Hc Hi. pose proof (law_expectation _ _ _ _ _ (fun out => same out [i; j]) (pair_law_network net ltac:(lia) Hc)) as G.
  replace (/ INR (n_agents net) * (INR (count_occ Nat.eq_dec (nth i (neigh net) []) j) / INR (length (nth i (neigh net) [])))) with (pair_mean (neigh net) (n_agents net) (fun out => same out [i; j])); [exact G|].
  unfold pair_mean. set (c := INR (count_occ Nat.eq_dec (nth i (neigh net) []) j) / INR (length (nth i (neigh net) []))).
  rewrite (mean_ext _ (fun i' => if Nat.eq_dec i' i then c else 0)).
  - assert (E : mean_of (fun i' => if Nat.eq_dec i' i then c else 0) (seq 0 (n_agents net)) = c * mean_of (fun i' => if Nat.eq_dec i' i then 1 else 0) (seq 0 (n_agents net))).
    { unfold mean_of. rewrite (total_ext _ (fun i' => c * (if Nat.eq_dec i' i then 1 else 0) + 0 * 0)) by (intros x _; destruct (Nat.eq_dec x i); ring).
      rewrite (total_lin _ (fun _ => 0)). unfold Rdiv. ring. }
    rewrite E, (mean_indicator Nat.eq_dec); [rewrite seq_length; ring|apply seq_NoDup|apply in_seq; lia].
  - intros i' _. destruct (Nat.eq_dec i' i) as [->|Hne].
    + unfold mean_of, c. f_equal. generalize (nth i (neigh net) []) as l. intros l. unfold total, same. induction l as [|x l IH]; [reflexivity|].
      cbn [fold_right count_occ]. rewrite IH. destruct (Nat.eq_dec x j) as [->|Hx].
      * destruct (list_eq_dec Nat.eq_dec [i; j] [i; j]) as [_|H]; [|congruence]. rewrite S_INR. ring.
      * destruct (list_eq_dec Nat.eq_dec [i; x] [i; j]) as [H|_]; [congruence|]. ring.
    + unfold mean_of. rewrite (total_ext _ (fun _ => 0)); [rewrite total_const; unfold Rdiv; ring|].
      intros x _. unfold same. destruct (list_eq_dec Nat.eq_dec [i'; x] [i; j]) as [H|_]; [congruence|reflexivity].
Qed.

(** ** C89 *)
(** C89. If all the opinions are closer to each other than the threshold (no network), the expected sum
    of the squared distances from the mean opinion shrinks by the factor 1 - 4 mu (1-mu) / (n-1) with
    every encounter, that is n times per iteration. *)
Theorem C89_expected_dispersion (m : deffuant (a:=RA) (simple_agent R)) k :
  use_network m = false -> (2 <= n_agents (df_net m))%nat -> 0 <= mu m <= 1 ->
  spread_below (homophily_threshold m) (@opinions RA (df_net m)) ->
  expectation (fun us => of_result (fun m' => dispersion (@opinions RA (df_net m'))) (simple_run uni_rng k m us))
    ((1 - 4 * mu m * (1 - mu m) / (INR (n_agents (df_net m)) - 1)) ^ (k * n_agents (df_net m)) * dispersion (@opinions RA (df_net m))).
Proof.
  intros Hu Hn Hmu HS. set (n := n_agents (df_net m)) in *. set (mu0 := mu m) in *.
  assert (HW : within (homophily_threshold m) (map s_opinion (agents (df_net m)))).
  { apply spread_within; [|exact HS]. intros E. apply map_eq_nil in E. unfold n, n_agents in Hn. rewrite E in Hn. cbn in Hn. lia. }
  assert (HR : running n (homophily_threshold m) mu0 m) by (split; [reflexivity|]; split; [reflexivity|]; split; [exact Hu|]; split; [reflexivity|exact HW]).
  refine (grows_expectation _ _ _ _ _ m (run_grows n (homophily_threshold m) mu0 Hn Hmu dispersion _ k _) HR).
  intros xs Hxs. rewrite <- Hxs. apply mean_dispersion. lia.
Qed.
(** C89. The expected distance of every agent's opinion from the mean shrinks by the factor
    1 - 2 mu / (n-1) with every encounter. *)
Theorem C89_expected_opinion (m : deffuant (a:=RA) (simple_agent R)) k i :
  use_network m = false -> (2 <= n_agents (df_net m))%nat -> 0 <= mu m <= 1 ->
  spread_below (homophily_threshold m) (@opinions RA (df_net m)) -> (i < n_agents (df_net m))%nat ->
  expectation (fun us => of_result (fun m' => nth i (@opinions RA (df_net m')) 0 - average (@opinions RA (df_net m'))) (simple_run uni_rng k m us))
    ((1 - 2 * mu m / (INR (n_agents (df_net m)) - 1)) ^ (k * n_agents (df_net m)) *
     (nth i (@opinions RA (df_net m)) 0 - average (@opinions RA (df_net m)))).
Proof.
  intros Hu Hn Hmu HS Hi. set (n := n_agents (df_net m)) in *. set (mu0 := mu m) in *.
  assert (HW : within (homophily_threshold m) (map s_opinion (agents (df_net m)))).
  { apply spread_within; [|exact HS]. intros E. apply map_eq_nil in E. unfold n, n_agents in Hn. rewrite E in Hn. cbn in Hn. lia. }
  assert (HR : running n (homophily_threshold m) mu0 m) by (split; [reflexivity|]; split; [reflexivity|]; split; [exact Hu|]; split; [reflexivity|exact HW]).
  refine (grows_expectation _ _ _ _ _ m (run_grows n (homophily_threshold m) mu0 Hn Hmu (fun xs => nth i xs 0 - average xs) _ k _) HR).
  intros xs Hxs. rewrite <- Hxs. apply mean_deviation; lia.
Qed.

(** ** C90 *)
(** C90. In an effective encounter every differing component independently settles on the value of the
    agent that was selected first with probability (1 + mu) / 2. *)
Theorem C90_vector_encounter (thr mu0 : R) i j (l : list vector_agent) u v (f : list vector_agent -> R) : 0 <= mu0 <= 1 -> i <> j ->
  nth_error l i = Some (mkVector u) -> nth_error l j = Some (mkVector v) -> length u = length v ->
  (Z.of_nat (length u) < 2147483648)%Z -> INR (differing u v) < thr ->
  expectation (fun us => of_result f (update_rule_vector (a:=RA) uni_rng thr mu0 i j l us))
    (over_rows (map (component_law mu0) (combine u v)) (fun w => f (upd (upd l i (mkVector w)) j (mkVector w)))).
Proof.
  intros Hmu Hne Ei Ej HL HB Hd. exact (law_expectation _ _ _ _ _ f (update_vector_law thr mu0 i j l u v Hmu Hne Ei Ej HL HB Hd)).
Qed.
Definition opinion_of (l : list vector_agent) (i : nat) : list Z := v_opinion (nth i l (mkVector [])).
Lemma over_rows_ext (ls : list (list (Z * R))) : forall (f g : list Z -> R), (forall t, f t = g t) -> over_rows ls f = over_rows ls g.
Proof. induction ls as [|law0 ls IHl]; intros f g H; cbn [over_rows]; auto. apply total_ext. intros xp _. f_equal. apply IHl. intros; apply H. Qed.
Lemma over_rows_zero (ls : list (list (Z * R))) : forall (f : list Z -> R), (forall t, f t = 0) -> over_rows ls f = 0.
Proof.
  induction ls as [|law0 ls IHl]; intros f H; cbn [over_rows]; auto. rewrite (total_ext _ (fun _ => 0)); [rewrite total_const; ring|].
  intros xp _. rewrite IHl by (intros; apply H). ring.
Qed.
Lemma settle_on (p : R) (pick : Z * Z -> Z) (mu0 : R) u v : length u = length v ->
  (forall o1 o2 g, o1 <> o2 -> total (fun xp => snd xp * (if Z.eq_dec (fst xp) (pick (o1, o2)) then g else 0)) (component_law mu0 (o1, o2)) = p * g) ->
  (forall o, pick (o, o) = o) ->
  over_rows (map (component_law mu0) (combine u v)) (fun w => same_vector w (map pick (combine u v))) = p ^ differing u v.
Proof.
  intros HL Hp Hs. revert v HL. induction u as [|o1 u IH]; intros [|o2 v] HL; cbn [length] in HL; try discriminate; [reflexivity|].
  cbn [combine map over_rows]. unfold differing. cbn [combine filter fst snd].
  assert (E : forall x, over_rows (map (component_law mu0) (combine u v)) (fun t => same_vector (x :: t) (pick (o1, o2) :: map pick (combine u v))) =
     if Z.eq_dec x (pick (o1, o2)) then p ^ differing u v else 0).
  { intros x. destruct (Z.eq_dec x (pick (o1, o2))) as [->|Hx].
    - rewrite <- (IH v) by lia. apply over_rows_ext. intros t. unfold same_vector.
      destruct (list_eq_dec Z.eq_dec t (map pick (combine u v))) as [->|Ht]; destruct (list_eq_dec Z.eq_dec _ _); congruence.
    - apply over_rows_zero. intros t. unfold same_vector. destruct (list_eq_dec Z.eq_dec _ _); [congruence|reflexivity]. }
  rewrite (total_ext _ (fun xp => snd xp * (if Z.eq_dec (fst xp) (pick (o1, o2)) then p ^ differing u v else 0))) by (intros xp _; now rewrite E).
  destruct (Z.eqb_spec o1 o2) as [->|Hne]; cbn [negb].
  - cbn [component_law]. rewrite Z.eqb_refl. unfold total. cbn [fold_right fst snd]. rewrite Hs. destruct (Z.eq_dec o2 o2); [|congruence].
    unfold differing. ring.
  - rewrite Hp by auto. reflexivity.
Qed.
(** C90. The agent selected first imposes all its opinions with probability ((1+mu)/2)^d, where d is the
    number of differing components, ... *)
Theorem C90_first_prevails (thr mu0 : R) i j (l : list vector_agent) u v : 0 <= mu0 <= 1 -> i <> j ->
  nth_error l i = Some (mkVector u) -> nth_error l j = Some (mkVector v) -> length u = length v ->
  (Z.of_nat (length u) < 2147483648)%Z -> INR (differing u v) < thr ->
  expectation (fun us => of_result (fun l' => same_vector (opinion_of l' j) u) (update_rule_vector (a:=RA) uni_rng thr mu0 i j l us))
    (((1 + mu0) / 2) ^ differing u v).
Proof.
  intros Hmu Hne Ei Ej HL HB Hd.
  pose proof (C90_vector_encounter thr mu0 i j l u v (fun l' => same_vector (opinion_of l' j) u) Hmu Hne Ei Ej HL HB Hd) as G.
  assert (Lj : (j < length l)%nat) by (apply nth_error_Some; congruence).
  rewrite <- (settle_on ((1 + mu0) / 2) fst mu0 u v HL).
  - replace (map fst (combine u v)) with u.
    + match type of G with expectation _ (over_rows ?ls ?h) => replace (over_rows ls (fun w => same_vector w u)) with (over_rows ls h); [exact G|] end.
      apply over_rows_ext. intros w. unfold opinion_of. rewrite nth_upd_eq by (now rewrite upd_length). reflexivity.
    + clear -HL. revert v HL. induction u as [|x u IH]; intros [|y v] HL; cbn [length] in HL; try discriminate; [reflexivity|]. cbn. f_equal. apply IH. lia.
  - intros o1 o2 g Ho. cbn [component_law fst]. rewrite (proj2 (Z.eqb_neq _ _) Ho). unfold total. cbn [fold_right fst snd].
    destruct (Z.eq_dec o1 o1); [|congruence]. destruct (Z.eq_dec o2 o1); [congruence|]. ring.
  - reflexivity.
Qed.
(** C90. ... and the other one with probability ((1-mu)/2)^d. *)
Theorem C90_second_prevails (thr mu0 : R) i j (l : list vector_agent) u v : 0 <= mu0 <= 1 -> i <> j ->
  nth_error l i = Some (mkVector u) -> nth_error l j = Some (mkVector v) -> length u = length v ->
  (Z.of_nat (length u) < 2147483648)%Z -> INR (differing u v) < thr ->
  expectation (fun us => of_result (fun l' => same_vector (opinion_of l' i) v) (update_rule_vector (a:=RA) uni_rng thr mu0 i j l us))
    (((1 - mu0) / 2) ^ differing u v).
Proof.
  intros Hmu Hne Ei Ej HL HB Hd.
  pose proof (C90_vector_encounter thr mu0 i j l u v (fun l' => same_vector (opinion_of l' i) v) Hmu Hne Ei Ej HL HB Hd) as G.
  assert (Li : (i < length l)%nat) by (apply nth_error_Some; congruence).
  rewrite <- (settle_on ((1 - mu0) / 2) snd mu0 u v HL).
  - replace (map snd (combine u v)) with v.
    + match type of G with expectation _ (over_rows ?ls ?h) => replace (over_rows ls (fun w => same_vector w v)) with (over_rows ls h); [exact G|] end.
      apply over_rows_ext. intros w. unfold opinion_of. rewrite nth_upd_neq by auto. rewrite nth_upd_eq by auto. reflexivity.
    + clear -HL. revert v HL. induction u as [|x u IH]; intros [|y v] HL; cbn [length] in HL; try discriminate; [reflexivity|]. cbn. f_equal. apply IH. lia.
  - intros o1 o2 g Ho. cbn [component_law snd]. rewrite (proj2 (Z.eqb_neq _ _) Ho). unfold total. cbn [fold_right fst snd].
    destruct (Z.eq_dec o1 o2); [congruence|]. destruct (Z.eq_dec o2 o2); [|congruence]. ring.
  - reflexivity.
Qed.
Lemma expectation_unique f v v' : expectation f v -> expectation f v' -> v = v'.
Proof. intros [N H] [N' H']. apply (expects_unique (Nat.max N N') f); [apply H|apply H']; lia. Qed.
(** C90. So "neither of the two is favoured" is false of every encounter in which something changes and
    mu > 0: the agent that was selected first prevails with a larger probability. *)
Theorem C90_neither_is_favoured_refuted (thr mu0 : R) i j (l : list vector_agent) u v : 0 < mu0 <= 1 -> i <> j ->
  nth_error l i = Some (mkVector u) -> nth_error l j = Some (mkVector v) -> length u = length v ->
  (Z.of_nat (length u) < 2147483648)%Z -> INR (differing u v) < thr -> u <> v ->
  exists p q,
    expectation (fun us => of_result (fun l' => same_vector (opinion_of l' j) u) (update_rule_vector (a:=RA) uni_rng thr mu0 i j l us)) p /\
    expectation (fun us => of_result (fun l' => same_vector (opinion_of l' i) v) (update_rule_vector (a:=RA) uni_rng thr mu0 i j l us)) q /\
    q < p.
Proof.
  intros Hmu Hne Ei Ej HL HB Hd Huv. exists (((1 + mu0) / 2) ^ differing u v), (((1 - mu0) / 2) ^ differing u v). split; [|split].
  - apply C90_first_prevails; auto. lra.
  - apply C90_second_prevails; auto. lra.
  - assert (D : (1 <= differing u v)%nat).
    { clear - HL Huv. revert v HL Huv. induction u as [|x u IH]; intros [|y v] HL Huv; cbn [length] in HL; try discriminate; [congruence|].
      unfold differing. cbn [combine filter fst snd]. destruct (Z.eqb_spec x y) as [->|H]; cbn [negb length]; [|lia].
      apply (IH v); [lia|]. intros ->. now apply Huv. }
    destruct (differing u v) as [|d]; [lia|]. clear - Hmu. 
    assert (Hd : ((1 - mu0) / 2) ^ d <= ((1 + mu0) / 2) ^ d) by (apply pow_incr; lra).
    assert (Hp : 0 < ((1 + mu0) / 2) ^ d) by (apply pow_lt; lra). cbn [pow]. nra.
Qed.

(** ** C91 *)
(** C91. The initial opinions of the vector model: every assignment of vectors of zeros and ones of the
    given length to the agents has the same probability, one in 2^(number of agents * dim). *)
Theorem C91_every_population_is_equally_likely dim (l : list vector_agent) (ws : list (list Z)) :
  length ws = length l -> (forall w, In w ws -> length w = dim /\ forall o, In o w -> o = 0%Z \/ o = 1%Z) ->
  expectation (fun us => of_result (fun l' => same_vectors (map v_opinion l') ws) (initialize_agents_vector (a:=RA) uni_rng dim l us))
    ((1 / 2) ^ (length l * dim)).
Proof.
  intros HL HW. pose proof (law_expectation _ _ _ _ _ (fun l' => same_vectors (map v_opinion l') ws) (population_law dim (length l) 0 l eq_refl)) as G.
  cbv beta in G. cbn [firstn app] in G.
  assert (HC : INR (length (products (repeat [0; 1]%Z dim))) = 2 ^ dim).
  { rewrite (products_count _ 2); [now rewrite repeat_length|]. intros l' Hl'. apply repeat_spec in Hl'. subst. cbn. ring. }
  assert (HN : NoDup (products (repeat [0; 1]%Z dim))).
  { apply products_nodup. intros l' Hl'. apply repeat_spec in Hl'. subst. constructor; [intros [H|[]]; discriminate|]. constructor; [intros []|constructor]. }
  replace ((1 / 2) ^ (length l * dim)) with
    (mean_of (fun vs => same_vectors (map v_opinion (map mkVector vs)) ws) (products (repeat (products (repeat [0; 1]%Z dim)) (length l)))); [exact G|].
  clear G. rewrite (mean_ext _ (fun vs => if list_eq_dec (list_eq_dec Z.eq_dec) vs ws then 1 else 0)).
  - rewrite (mean_indicator (list_eq_dec (list_eq_dec Z.eq_dec))).
    + rewrite (products_count _ (2 ^ dim)) by (intros l' Hl'; apply repeat_spec in Hl'; now subst). rewrite repeat_length, <- pow_mult, <- pow_inv.
      replace (1 / 2) with (/ 2) by field. f_equal. lia.
    + apply products_nodup. intros l' Hl'. apply repeat_spec in Hl'. now subst.
    + apply products_in. rewrite <- HL. clear - HW. induction ws as [|w ws IH]; cbn [length repeat]; constructor.
      * destruct (HW w (or_introl eq_refl)) as [<- Hb]. apply products_in. clear - Hb. induction w as [|o w IH]; cbn [length repeat]; constructor.
        -- destruct (Hb o (or_introl eq_refl)) as [-> | ->]; cbn; auto.
        -- apply IH. intros; apply Hb. now right.
      * apply IH. intros; apply HW. now right.
  - intros vs _. unfold same_vectors. rewrite map_map. cbn [v_opinion]. now rewrite map_id.
Qed.

(** ** Non-vacuity *)
Example C87_case : expectation (fun us => of_output (fun out => same out [0; 3]%nat) (draw_unique_k_from_n uni_rng (Some 2%nat) 2 5 [] us)) (1 / 6).
Proof.
  replace (1 / 6) with (/ Binomial.C (population_size (Some 2%nat) 5) 2).
  - apply C87_every_selection_is_equally_likely; [constructor; [constructor; constructor|constructor; [lia|constructor]]|reflexivity|].
    intros i [<-|[<-|[]]]; (split; [lia|discriminate]).
  - unfold population_size, Binomial.C. cbn. field.
Qed.
Example C87_network_case : expectation (fun us => of_result (fun G : network unit R => same_rows (neigh G) [[1;2];[0;2];[0;1]]%nat)
    (generate_n_connections (a:=RA) uni_rng tt 3 2 false us)) ((/ Binomial.C 2 2) ^ 3).
Proof.
  apply C87_every_network_is_equally_likely; [lia|reflexivity|].
  intros [|[|[|i]]] row E; cbn in E; try (destruct i; discriminate); injection E as <-;
    [exists [1;2]%nat|exists [0;2]%nat|exists [0;1]%nat];
    (split; [reflexivity|]; split; [reflexivity|]; split; [constructor; [constructor; constructor|constructor; [lia|constructor]]|];
     intros j [<-|[<-|[]]]; lia).
Qed.
Definition pair_net : network (simple_agent R) R :=
  mkNet (map (@mkSimple R) [1/4; 1/2; 1]) [[1; 2]; [0]; [0; 0; 1]]%nat [[1; 1]; [1]; [1; 1; 1]] Incoming.
Example C88_case : expectation (fun us => of_output (fun out => same out [2; 0]%nat) (select_interacting_agent_pair (a:=RA) uni_rng true pair_net us)) (2 / 9).
Proof.
  assert (Hc : @can_select RA _ true pair_net).
  { right. split; [|split; [cbn; lia|]].
    - split; [reflexivity|]. split; [reflexivity|]. split.
      + intros [|[|[|i]]] Hi; try reflexivity. cbn in Hi. lia.
      + intros [|[|[|[|i]]]] j Hj; cbn in Hj |- *; intuition lia.
    - intros [|[|[|i]]] Hi; cbn in Hi |- *; split; lia. }
  replace (2 / 9) with (/ INR (n_agents pair_net) * (INR (count_occ Nat.eq_dec (nth 2 (neigh pair_net) []) 0%nat) / INR (length (nth 2 (neigh pair_net) []))))
    by (cbn; field). apply C88_pair_with_network; [exact Hc|cbn; lia].
Qed.
Example C88_no_network_case : expectation (fun us => of_output (fun out => same out [0; 2]%nat) (select_interacting_agent_pair (a:=RA) uni_rng false pair_net us)) (1 / 3).
Proof.
  replace (1 / 3) with (2 / (INR (n_agents pair_net) * (INR (n_agents pair_net) - 1))) by (cbn; field). apply C88_pair_without_network. cbn. lia.
Qed.
Definition pair_model : deffuant (a:=RA) (simple_agent R) := mkDeffuant (a:=RA) (base_ctor None) 1 (1/4) false pair_net.
Example C89_case : expectation (fun us => of_result (fun m' => dispersion (@opinions RA (df_net m'))) (simple_run uni_rng 2 pair_model us))
  ((5 / 8) ^ 6 * (7 / 24)).
Proof.
  assert (HS : spread_below (homophily_threshold pair_model) (@opinions RA (df_net pair_model))).
  { intros x y Hx Hy. cbn in Hx, Hy. unfold Rabs. destruct (Rcase_abs (x - y)); cbn; intuition (subst; lra). }
  pose proof (C89_expected_dispersion pair_model 2 eq_refl ltac:(cbn; lia) ltac:(cbn; lra) HS) as G.
  replace ((5 / 8) ^ 6 * (7 / 24)) with ((1 - 4 * mu pair_model * (1 - mu pair_model) / (INR (n_agents (df_net pair_model)) - 1)) ^ (2 * n_agents (df_net pair_model)) * dispersion (@opinions RA (df_net pair_model))); [exact G|].
  change (2 * n_agents (df_net pair_model))%nat with 6%nat. unfold dispersion, average, total, opinions. cbn. field.
Qed.
Example C90_case : expectation (fun us => of_result (fun l' => same_vector (opinion_of l' 1%nat) [0; 1; 1]%Z)
    (update_rule_vector (a:=RA) uni_rng 3 (1/2) 0%nat 1%nat [mkVector [0; 1; 1]%Z; mkVector [1; 1; 0]%Z] us)) (9 / 16).
Proof.
  replace (9 / 16) with (((1 + 1/2) / 2) ^ differing [0; 1; 1]%Z [1; 1; 0]%Z) by (cbn; field).
  apply C90_first_prevails; try reflexivity; [lra|discriminate|cbn; lra].
Qed.
Example C90_unfair_case : exists p q,
    expectation (fun us => of_result (fun l' => same_vector (opinion_of l' 1%nat) [0; 1; 1]%Z) (update_rule_vector (a:=RA) uni_rng 3 (1/2) 0%nat 1%nat [mkVector [0; 1; 1]%Z; mkVector [1; 1; 0]%Z] us)) p /\
    expectation (fun us => of_result (fun l' => same_vector (opinion_of l' 0%nat) [1; 1; 0]%Z) (update_rule_vector (a:=RA) uni_rng 3 (1/2) 0%nat 1%nat [mkVector [0; 1; 1]%Z; mkVector [1; 1; 0]%Z] us)) q /\
    q < p.
Proof. apply C90_neither_is_favoured_refuted; try reflexivity; [lra|discriminate|cbn; lra|discriminate]. Qed.
Example C91_case : expectation (fun us => of_result (fun l' => same_vectors (map v_opinion l') [[0; 1; 1]; [1; 0; 1]]%Z)
    (initialize_agents_vector (a:=RA) uni_rng 3 [mkVector []; mkVector []] us)) ((1 / 2) ^ 6).
Proof.
  apply (C91_every_population_is_equally_likely 3 [mkVector []; mkVector []]); [reflexivity|].
  intros w [<-|[<-|[]]]; (split; [reflexivity|]); intros o; cbn; intuition lia.
Qed.

Print Assumptions C87_every_selection_is_equally_likely.
Print Assumptions C87_expectation.
Print Assumptions C87_every_network_is_equally_likely.
Print Assumptions C88_pair_without_network.
Print Assumptions C88_larger_first_never.
Print Assumptions C88_pair_with_network.
Print Assumptions C89_expected_dispersion.
Print Assumptions C89_expected_opinion.
Print Assumptions C90_vector_encounter.
Print Assumptions C90_first_prevails.
Print Assumptions C90_second_prevails.
Print Assumptions C90_neither_is_favoured_refuted.
Print Assumptions C91_every_population_is_equally_likely.
