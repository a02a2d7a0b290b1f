(** Property theorems C35, C36 and C57: the Deffuant model on binary vectors. *)
From Verif Require Import Base BaseFacts Arith64 RFacts MRandom SRandom WRandom MNetwork SNetwork MAgents MDeGroot MDeffuant SDeffuant PDeffuant PDeffuantV PDeffuantW.
From Coq Require Import Reals Lra.

(** C36. hamming_distance is a metric that counts the differing positions. *)
Theorem C36_counts (u v : list Z) : (Z.of_nat (length u) < 2147483648)%Z ->
  (length u = length v -> hamming_distance u v = Ok (Z.of_nat (differing u v))) /\
  (length u <> length v -> hamming_distance u v = Throw ExRuntime).
Proof.
  intros HB. split; intros HL; [|now apply hamming_throw]. apply hamming_ok; auto. pose proof (differing_le u v). lia.
Qed.
Theorem C36_metric (u v w : list Z) : (Z.of_nat (length u) < 2147483648)%Z -> length u = length v -> length v = length w ->
  exists duv dvu dvw duw, hamming_distance u v = Ok duv /\ hamming_distance v u = Ok dvu /\
    hamming_distance v w = Ok dvw /\ hamming_distance u w = Ok duw /\
    (0 <= duv <= Z.of_nat (length u))%Z /\ duv = dvu /\ (duv = 0%Z <-> u = v) /\ (duw <= duv + dvw)%Z.
Proof.
  intros HB H1 H2. exists (Z.of_nat (differing u v)), (Z.of_nat (differing v u)), (Z.of_nat (differing v w)), (Z.of_nat (differing u w)).
  pose proof (differing_le u v). pose proof (differing_le v u). pose proof (differing_le v w). pose proof (differing_le u w).
  repeat (split; [apply hamming_ok; lia|]). split; [lia|]. split; [f_equal; apply differing_sym|]. split.
  - rewrite <- (differing_zero u v H1). lia.
  - pose proof (differing_triangle u v w H1 H2). lia.
Qed.
(** [differing] is what its name says: position by position. *)
Theorem C36_positions (u v : list Z) : length u = length v ->
  exists ks, NoDup ks /\ (forall k, In k ks <-> k < length u /\ nth k u 0%Z <> nth k v 0%Z) /\
    ((Z.of_nat (length u) < 2147483648)%Z -> hamming_distance u v = Ok (Z.of_nat (length ks))).
Proof.
  intros HL. exists (filter (fun k => negb (nth k u 0 =? nth k v 0)%Z) (seq 0 (length u))). split; [apply NoDup_filter, seq_NoDup|]. split.
  - intros k. rewrite filter_In, in_seq, negb_true_iff, Z.eqb_neq. intuition lia.
  - intros HB. destruct (C36_counts u v HB) as [C _]. rewrite (C HL). do 2 f_equal.
    assert (G : forall u v i, length u = length v -> differing u v =
       length (filter (fun k => negb (nth (k - i) u 0 =? nth (k - i) v 0)%Z) (seq i (length u)))).
    { clear. induction u as [|x u IH]; intros [|y v] i HL; try discriminate; auto. rewrite differing_cons. cbn [length seq filter].
      rewrite Nat.sub_diag. cbn [nth]. cbn in HL. rewrite (IH v (S i)) by lia.
      assert (E : filter (fun k => negb (nth (k - S i) u 0 =? nth (k - S i) v 0)%Z) (seq (S i) (length u)) =
                  filter (fun k => negb (nth (k - i) (x :: u) 0 =? nth (k - i) (y :: v) 0)%Z) (seq (S i) (length u))).
      { apply filter_ext_in. intros k Hk. apply in_seq in Hk. replace (k - i) with (S (k - S i)) by lia. reflexivity. }
      rewrite E. destruct (x =? y)%Z; reflexivity. }
    rewrite (G u v 0 HL). f_equal. apply filter_ext. intros k. now rewrite Nat.sub_0_r.
Qed.
Example C36_instance : hamming_distance [0;1;1;0]%Z [1;1;0;0]%Z = Ok 2%Z /\ hamming_distance [0;1]%Z [1]%Z = Throw ExRuntime.
Proof. split; reflexivity. Qed.

(** C35. One encounter of two different agents. *)
Theorem C35_encounter (a : Arith) (g : Rng a) (thr m0 : F a) i1 i2 (l : list vector_agent) s u v :
  i1 <> i2 -> nth_error l i1 = Some (mkVector u) -> nth_error l i2 = Some (mkVector v) ->
  (Z.of_nat (length u) < 2147483648)%Z ->
  (length u <> length v -> update_rule_vector g thr m0 i1 i2 l s = Throw ExRuntime) /\
  (length u = length v -> flt a (fofZ a (Z.of_nat (differing u v))) thr = false ->
     update_rule_vector g thr m0 i1 i2 l s = Ok (l, s)) /\
  (length u = length v -> flt a (fofZ a (Z.of_nat (differing u v))) thr = true ->
     exists l' s' w, update_rule_vector g thr m0 i1 i2 l s = Ok (l', s') /\
       length l' = length l /\ (forall k, k <> i1 -> k <> i2 -> nth_error l' k = nth_error l k) /\
       nth_error l' i1 = Some (mkVector w) /\ nth_error l' i2 = Some (mkVector w) /\
       length w = length u /\
       forall k, k < length u -> nth k w 0%Z = nth k u 0%Z \/ nth k w 0%Z = nth k v 0%Z).
Proof.
  intros Hne E1 E2 HB. unfold update_rule_vector.
  rewrite (proj2 (vget_ok _ l i1 _) E1), (proj2 (vget_ok _ l i2 _) E2). cbn [bind v_opinion].
  destruct (C36_counts u v HB) as [C1 C2]. split; [|split].
  - intros HL. rewrite (C2 HL). reflexivity.
  - intros HL T. rewrite (C1 HL). cbn [bind]. now rewrite T.
  - intros HL T. rewrite (C1 HL). cbn [bind]. rewrite T.
    destruct (vector_loop_ok g m0 i1 i2 l s u v Hne E1 E2 HL) as (l' & s' & w & E & A1 & A2 & A3 & A4 & A5 & A6 & _).
    exists l', s', w. auto 10.
Qed.

(** C35. The rule in full: which agent gives way in each differing component, and the draws made. *)
Theorem C35_rule (a : Arith) (g : Rng a) (thr m0 : F a) i1 i2 (l : list vector_agent) s u v :
  nth_error l i1 = Some (mkVector u) -> nth_error l i2 = Some (mkVector v) -> length u = length v ->
  (Z.of_nat (length u) < 2147483648)%Z ->
  exists l' s', update_rule_vector g thr m0 i1 i2 l s = Ok (l', s') /\ vector_meets g thr m0 i1 i2 l s l' s'.
Proof. apply update_vector_meets. Qed.

(** C35. One iteration is as many encounters of successively selected pairs as there are agents. *)
Theorem C35_iteration_is_n_encounters (a : Arith) (g : Rng a) (m : deffuant (a:=a) vector_agent) s dim :
  sample_ok g -> int_ok g -> can_select (use_network m) (df_net m) -> (Z.of_nat dim < 2147483648)%Z ->
  Forall (fun x => length (v_opinion x) = dim) (agents (df_net m)) ->
  exists m' s', vector_iteration g m s = Ok (m', s') /\
    vector_encounters g (homophily_threshold m) (mu m) (use_network m) (df_net m)
      (n_agents (df_net m)) (agents (df_net m)) s (agents (df_net m')) s' /\
    neigh (df_net m') = neigh (df_net m) /\ wts (df_net m') = wts (df_net m) /\ dir (df_net m') = dir (df_net m) /\
    n_agents (df_net m') = n_agents (df_net m) /\
    homophily_threshold m' = homophily_threshold m /\ mu m' = mu m /\ use_network m' = use_network m /\
    iterations (df_base m') = ((iterations (df_base m) + 1) mod 2 ^ 64)%Z /\
    max_iterations (df_base m') = max_iterations (df_base m).
Proof.
  intros Hs Hi Hc HB HD. unfold vector_iteration, deffuant_iteration, for_n.
  destruct (Nat.eq_dec (n_agents (df_net m)) 0) as [E0|Hn].
  - rewrite E0. cbn [for_from bind]. do 2 eexists. split; [reflexivity|]. cbn [df_net df_base homophily_threshold mu use_network].
    split; [constructor|]. repeat (split; [auto|]). auto.
  - destruct (vector_encounters_ok g Hs Hi (homophily_threshold m) (mu m) (use_network m) dim (n_agents (df_net m)) (df_net m) s 0
      ltac:(lia) Hc HB HD) as (l' & s' & E & HL & VE).
    rewrite E. cbn [bind]. do 2 eexists. split; [reflexivity|]. cbn [df_net df_base homophily_threshold mu use_network].
    split; [exact VE|]. repeat (split; [auto|]). auto.
Qed.

(** An agent that meets itself (a population of one) is left alone. *)
Lemma self_encounter (a : Arith) (g : Rng a) (thr m0 : F a) i (l : list vector_agent) s u :
  nth_error l i = Some (mkVector u) -> (Z.of_nat (length u) < 2147483648)%Z ->
  update_rule_vector g thr m0 i i l s = Ok (l, s).
Proof.
  intros E HB. unfold update_rule_vector. rewrite (proj2 (vget_ok _ l i _) E). cbn [bind v_opinion].
  rewrite (proj1 (C36_counts u u HB) eq_refl). cbn [bind]. destruct (flt a _ thr); auto.
  match goal with |- ?m = _ => assert (G : okp m (fun r => r = (l, s))) end.
  { apply (for_n_inv _ (fun _ r => r = (l, s))); auto. intros k r Hk ->. unfold component.
    rewrite (proj2 (vget_ok _ l i _) E). cbn [bind v_opinion]. rewrite (vget_lt _ _ _ 0%Z) by auto. cbn [bind]. now rewrite Z.eqb_refl. }
  now apply okp_ex in G as (r & -> & ->).
Qed.

(** What every encounter preserves: dimensions, and any per-position property of the components
    (binary components: [Q k o := o = 0 \/ o = 1]; unanimity in position k: [Q k o := o = c]). *)
Definition vectors (dim : nat) (Q : nat -> Z -> Prop) (l : list vector_agent) : Prop :=
  forall i x, nth_error l i = Some x -> length (v_opinion x) = dim /\ forall k, k < dim -> Q k (nth k (v_opinion x) 0%Z).

Lemma update_vectors (a : Arith) (g : Rng a) (thr m0 : F a) dim Q i1 i2 l s :
  (Z.of_nat dim < 2147483648)%Z -> i1 < length l -> i2 < length l -> vectors dim Q l ->
  exists l' s', update_rule_vector g thr m0 i1 i2 l s = Ok (l', s') /\ length l' = length l /\ vectors dim Q l' /\
    ((forall s, flt a m0 (fst (r_real g (f0 a) (f1 a) s)) = false) -> nth_error l' i1 = nth_error l i1) /\
    (forall k, k <> i1 -> k <> i2 -> nth_error l' k = nth_error l k).
Proof.
  intros HB L1 L2 HV.
  destruct (nth_error l i1) as [[u]|] eqn:E1; [|apply nth_error_None in E1; lia].
  destruct (nth_error l i2) as [[v]|] eqn:E2; [|apply nth_error_None in E2; lia].
  destruct (HV _ _ E1) as [D1 Q1]. destruct (HV _ _ E2) as [D2 Q2]. cbn [v_opinion] in *.
  destruct (Nat.eq_dec i1 i2) as [<-|Hne].
  { exists l, s. rewrite (self_encounter a g thr m0 i1 l s u E1) by lia. repeat split; auto; eapply HV; eauto. }
  unfold update_rule_vector.
  rewrite (proj2 (vget_ok _ l i1 _) E1), (proj2 (vget_ok _ l i2 _) E2). cbn [bind v_opinion].
  rewrite (proj1 (C36_counts u v ltac:(lia))) by lia. cbn [bind].
  destruct (flt a _ thr).
  - destruct (vector_loop_ok g m0 i1 i2 l s u v Hne E1 E2 ltac:(lia)) as (l' & s' & w & E & A1 & A2 & A3 & A4 & A5 & A6 & A7).
    exists l', s'. split; auto. split; auto. split; [|split; auto].
    + intros k x Hx. destruct (Nat.eq_dec k i1) as [->|N1]; [|destruct (Nat.eq_dec k i2) as [->|N2]].
      * assert (x = mkVector w) by congruence. subst x. cbn [v_opinion]. split; [lia|]. intros q Hq. destruct (A6 q ltac:(lia)) as [-> | ->]; auto.
      * assert (x = mkVector w) by congruence. subst x. cbn [v_opinion]. split; [lia|]. intros q Hq. destruct (A6 q ltac:(lia)) as [-> | ->]; auto.
      * rewrite A2 in Hx by auto. eapply HV; eauto.
    + intros Hn. rewrite A3. now rewrite (A7 Hn).
  - exists l, s. repeat split; auto; eapply HV; eauto.
Qed.

Theorem C35_run (a : Arith) (g : Rng a) (m : deffuant (a:=a) vector_agent) s k dim Q :
  sample_ok g -> int_ok g -> can_select (use_network m) (df_net m) -> (Z.of_nat dim < 2147483648)%Z ->
  vectors dim Q (agents (df_net m)) ->
  exists m' s', vector_run g k m s = Ok (m', s') /\ vectors dim Q (agents (df_net m')) /\
    neigh (df_net m') = neigh (df_net m) /\ n_agents (df_net m') = n_agents (df_net m).
Proof.
  intros Hs Hi. revert m s. induction k as [|k IH]; intros m s Hc HB HV; cbn [vector_run]; [exists m, s; auto|].
  unfold vector_iteration.
  destruct (iteration_inv g Hs Hi (update_rule_vector g (homophily_threshold m) (mu m)) m s (vectors dim Q) Hc HV) as (l' & s' & E & HL & HV').
  { intros i j l s0 (V1 & V2 & _) HLl Hl. cbn [fst snd] in V1, V2.
    destruct (update_vectors a g (homophily_threshold m) (mu m) dim Q i j l s0 HB ltac:(lia) ltac:(lia) Hl) as (l' & s' & E & A1 & A2 & _).
    eauto. }
  rewrite E. cbn [bind].
  match goal with |- context [vector_run g k ?x s'] => destruct (IH x s') as (m' & s'' & E' & H1 & H2 & H3) end.
  - cbn [use_network df_net]. now apply can_select_ext.
  - exact HB.
  - exact HV'.
  - exists m', s''. split; auto. split; auto. split; auto. rewrite H3. exact HL.
Qed.

(** Initialisation makes binary vectors of the requested dimension. *)
Theorem C35_initial_vectors (a : Arith) (g : Rng a) dim (l : list vector_agent) s : int_ok g ->
  exists l' s', initialize_agents_vector g dim l s = Ok (l', s') /\ length l' = length l /\
    vectors dim (fun _ o => o = 0%Z \/ o = 1%Z) l'.
Proof.
  intros Hi. unfold initialize_agents_vector.
  match goal with |- exists l' s', ?m = _ /\ _ => assert (G : okp m (fun ls => length (fst ls) = length l /\
    forall i x, i < length l -> nth_error (fst ls) i = Some x -> length (v_opinion x) = dim /\ forall k, k < dim -> nth k (v_opinion x) 0%Z = 0%Z \/ nth k (v_opinion x) 0%Z = 1%Z)) end.
  { apply (for_n_inv _ (fun n ls => length (fst ls) = length l /\
    forall i x, i < n -> nth_error (fst ls) i = Some x -> length (v_opinion x) = dim /\ forall k, k < dim -> nth k (v_opinion x) 0%Z = 0%Z \/ nth k (v_opinion x) 0%Z = 1%Z)).
    - split; auto. intros; lia.
    - intros j [l1 s1] Hj [HL HP]. cbn [fst] in *. rewrite (vget_lt _ _ _ (mkVector [])) by lia. cbn [bind].
      set (x0 := nth j l1 (mkVector [])).
      match goal with |- okp (bind ?m _) _ => assert (G : okp m (fun os => length (fst os) = dim /\ forall k, k < dim -> nth k (fst os) 0%Z = 0%Z \/ nth k (fst os) 0%Z = 1%Z)) end.
      { apply (for_n_inv _ (fun n (os : list Z * rst g) => length (fst os) = dim /\ forall k, k < n -> nth k (fst os) 0%Z = 0%Z \/ nth k (fst os) 0%Z = 1%Z)).
        - cbn [fst]. split; [apply resize_length|]. intros; lia.
        - intros k [o s2] Hk [HLo HPo]. cbn [fst] in *. pose proof (Hi 0%Z 1%Z s2 ltac:(lia)) as B. destruct (r_int g 0 1 s2) as [z s3]. cbn [fst] in B.
          rewrite vset_ok by lia. cbn [bind okp fst]. rewrite upd_length. split; auto. intros q Hq.
          rewrite nth_upd. destruct (Nat.eqb_spec k q) as [->|N]; cbn [andb].
          + destruct (Nat.ltb_spec q (length o)); [lia|lia].
          + apply HPo. lia. }
      apply okp_ex in G as ([o s2] & -> & HLo & HPo). cbn [bind fst] in *. rewrite vset_ok by lia. cbn [bind okp fst]. rewrite upd_length. split; auto.
      intros i x Hi' Hx. destruct (Nat.eq_dec i j) as [->|N].
      + rewrite nth_error_upd_eq in Hx by lia. injection Hx as <-. cbn [v_opinion]. auto.
      + rewrite nth_error_upd_neq in Hx by auto. apply (HP i); auto. lia. }
  apply okp_ex in G as ([l' s'] & -> & HL & HP). exists l', s'. cbn [fst] in *. split; auto. split; auto.
  intros i x Hx. apply (HP i); auto. rewrite <- HL. apply nth_error_Some. congruence.
Qed.

(** C57. mu >= 1 switches influence on the lower-indexed agent off: without a network agent 0 keeps
    its vector forever. *)
Lemma agent0_fixed (a : Arith) (g : Rng a) (m : deffuant (a:=a) vector_agent) s k dim :
  sample_ok g -> int_ok g -> use_network m = false -> (Z.of_nat dim < 2147483648)%Z ->
  vectors dim (fun _ _ => True) (agents (df_net m)) ->
  (forall s, flt a (mu m) (fst (r_real g (f0 a) (f1 a) s)) = false) ->
  exists m' s', vector_run g k m s = Ok (m', s') /\ nth_error (agents (df_net m')) 0 = nth_error (agents (df_net m)) 0.
Proof.
  intros Hs Hi. revert m s. induction k as [|k IH]; intros m s Hu HB HV Hn; cbn [vector_run]; [exists m, s; auto|].
  unfold vector_iteration.
  destruct (iteration_inv g Hs Hi (update_rule_vector g (homophily_threshold m) (mu m)) m s
     (fun l => vectors dim (fun _ _ => True) l /\ nth_error l 0 = nth_error (agents (df_net m)) 0)) as (l' & s' & E & HL & HV' & H0).
  { now left. }
  { auto. }
  { intros i j l s0 (V1 & V2 & V3 & _) HLl [Hl Hl0]. cbn [fst snd] in V1, V2, V3.
    destruct (update_vectors a g (homophily_threshold m) (mu m) dim (fun _ _ => True) i j l s0 HB ltac:(lia) ltac:(lia) Hl) as (l' & s' & E & A1 & A2 & A3 & A4).
    exists l', s'. split; auto. split; auto. split; auto. rewrite <- Hl0.
    destruct i as [|i]; [now apply A3|]. apply A4; [lia|].
    intros <-. destruct (Nat.lt_ge_cases (n_agents (df_net m)) 2); [lia|]. specialize (V3 Hu H). lia. }
  rewrite E. cbn [bind].
  match goal with |- context [vector_run g k ?x s'] => destruct (IH x s') as (m' & s'' & E' & H1) end; auto.
  exists m', s''. split; auto. rewrite H1. exact H0.
Qed.

Theorem C57_agent_zero_never_convinced (g : Rng RA) (m : deffuant (a:=RA) vector_agent) s k dim :
  sample_ok g -> int_ok g -> real_ok g -> use_network m = false -> (Z.of_nat dim < 2147483648)%Z ->
  vectors dim (fun _ _ => True) (agents (df_net m)) -> (1 <= mu m)%R ->
  exists m' s', vector_run g k m s = Ok (m', s') /\ nth_error (agents (df_net m')) 0 = nth_error (agents (df_net m)) 0.
Proof.
  intros Hs Hi Hr Hu HB HV Hm. apply (agent0_fixed RA g m s k dim); auto. intros s0.
  destruct (Hr (f0 RA) (f1 RA) s0) as [_ H]; [cbn; destruct (Rltb_spec 0 1); auto; lra|]. 
  revert H Hm. generalize (fst (r_real g (f0 RA) (f1 RA) s0)) as u, (mu m) as c. intros u c H Hm. cbn in u, c, H |- *.
  destruct (Rltb_spec u 1) as [H1|]; [|discriminate]. destruct (Rltb_spec c u); auto. lra.
Qed.

(** ... and with doubles for mu = 1.0. *)
Theorem C57_agent_zero_never_convinced_float (g : Rng FA) (m : deffuant (a:=FA) vector_agent) s k dim :
  sample_ok g -> int_ok g -> real_ok g -> use_network m = false -> (Z.of_nat dim < 2147483648)%Z ->
  vectors dim (fun _ _ => True) (agents (df_net m)) -> mu m = f1 FA ->
  exists m' s', vector_run g k m s = Ok (m', s') /\ nth_error (agents (df_net m')) 0 = nth_error (agents (df_net m)) 0.
Proof.
  intros Hs Hi Hr Hu HB HV Hm. apply (agent0_fixed FA g m s k dim); auto. intros s0. rewrite Hm.
  destruct (Hr (f0 FA) (f1 FA) s0) as [_ H]; [reflexivity|].
  revert H. generalize (fst (r_real g (f0 FA) (f1 FA) s0)). intros u. cbn [flt FA].
  unfold BinarySingleNaN.Bltb, SpecFloat.SFltb. intros H.
  pose proof (BinarySingleNaN.Bcompare_swap 53 1024 u (f1 FA)) as S. unfold BinarySingleNaN.Bcompare in S.
  change prec with 53%Z in *. change emax with 1024%Z in *.
  rewrite S. destruct (SpecFloat.SFcompare _ _) as [[| |]|]; cbn; congruence.
Qed.

(** With mu below 1 agent 0 can be convinced: the fixed outcome really comes from mu >= 1. *)
Definition vec2 (m0 : R) : deffuant (a:=RA) vector_agent :=
  mkDeffuant (a:=RA) (base_ctor None) 5%R m0 false
    (mkNet [mkVector [0;0]%Z; mkVector [1;1]%Z] [[];[]] [[];[]] Incoming).
Lemma half_real_ok : real_ok (a:=RA) (mkRng RA unit (fun lo hi s => ((lo + hi) / 2, s)%R) (fun lo _ s => (lo, s))
        (fun pop k s => (seq 0 (Nat.min k pop), s)) (fun s => (0%R, s))).
Proof.
  intros lo hi s H. cbn in *. destruct (Rltb_spec lo hi); [|discriminate].
  split; [destruct (Rleb_spec lo ((lo + hi) / 2)); auto; lra|destruct (Rltb_spec ((lo + hi) / 2) hi); auto; lra].
Qed.
Example C57_instance : vectors 2 (fun _ _ => True) (agents (df_net (vec2 1))) /\ use_network (vec2 1) = false /\
  vectors 2 (fun _ o => o = 0%Z \/ o = 1%Z) (agents (df_net (vec2 1))) /\ @can_select RA _ (use_network (vec2 1)) (df_net (vec2 1)).
Proof.
  split; [|split; [reflexivity|split; [|now left]]]; intros [|[|i]] x H; cbn in H; try (injection H as <-); cbn; auto;
    try (split; auto; intros [|[|k]] Hk; cbn; auto; lia); destruct i; discriminate.
Qed.
Example C57_contrast : exists m' s', vector_run (const_rng (a:=RA) (1/2) 0)%R 1 (vec2 (1/4)) tt = Ok (m', s') /\
  nth_error (agents (df_net m')) 0 = Some (mkVector [1;1]%Z).
Proof.
  unfold vector_run, vector_iteration, deffuant_iteration, encounter, update_rule_vector. cbn -[Rltb Rdiv].
  destruct (Rltb_spec 2 5) as [_|]; [|lra]. cbn -[Rltb Rdiv]. destruct (Rltb_spec (1/4) (1/2)) as [_|]; [|lra]. cbn -[Rltb Rdiv].
  destruct (Rltb_spec (1/4) (1/2)) as [_|]; [|lra]. cbn -[Rltb Rdiv].
  destruct (Rltb_spec 0 5) as [_|]; [|lra]. cbn. do 2 eexists. split; reflexivity.
Qed.
Print Assumptions C35_encounter.
Print Assumptions C35_rule.
Print Assumptions C35_iteration_is_n_encounters.
Print Assumptions C35_run.
Print Assumptions C35_initial_vectors.
Print Assumptions C36_counts.
Print Assumptions C36_metric.
Print Assumptions C36_positions.
Print Assumptions C57_agent_zero_never_convinced.
Print Assumptions C57_agent_zero_never_convinced_float.
