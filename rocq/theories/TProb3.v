(** Property theorem C72: the law of the whole network that the probabilistic update of the activity-driven
    model produces. *)
From Verif Require Import Base BaseFacts Arith64 MNetwork SNetwork MAgents MRandom SRandom PRandom RFacts PReservoir WRandom MActivity SActivity PActNet PNetwork2
  SProb SProb2 PProb PProb2 PProb9 PProb10 PProb11 TRandom TProb TProb2.
From Coq Require Import Permutation Reals Lra.
Local Open Scope R_scope.

(** A function of the pairs (source, target) of the network's edges, 0 if the update fails. *)
Definition of_edges {A} (f : list (nat * nat) -> R) (r : res (network A ext * list R)) : R :=
  match r with Ok (h, _) => f (map fst (edges h)) | _ => 0 end.

(** The weight with which agent [i] chooses [j]. *)
Definition closeness (X beta : nat -> R) (i j : nat) : R :=
  if (j =? i)%nat then 0 else Rpower (Rmax (1 / 10 ^ 10) (Rabs (X i - X j))) (- beta i).

Lemma affinity_value (lm : Libm EA) (A : Type) (ops : agent_ops (F EA) A) (st : ad_settings (F EA)) (l : list A) (X beta : nat -> R) i j :
  lpow EA lm = epow -> (forall j y, nth_error l j = Some y -> get_opinion ops y = Fin (X j)) ->
  (i < length l)%nat -> (j < length l)%nat -> homophily_of (a:=EA) st i = Fin (beta i) ->
  affinity (a:=EA) lm ops st l i j = Fin (closeness X beta i j).
Proof.
  intros Hp HX Hi Hk Hbeta. unfold affinity, closeness.
  destruct (Nat.eqb_spec j i) as [->|Hne]; [reflexivity|].
  destruct (nth_error l i) as [x|] eqn:Ex. 2:{ apply nth_error_None in Ex. lia. }
  destruct (nth_error l j) as [y|] eqn:Ey. 2:{ apply nth_error_None in Ey. lia. }
  rewrite (HX i x Ex), (HX j y Ey), Hbeta, Hp.
  assert (EL : @MDist.lit10 EA 1 10 = Fin (1 / 10 ^ 10)).
  { unfold MDist.lit10. change (match (10 ^ Z.of_N 10)%Z with Zpos q0 => q0 | _ => 1%positive end) with 10000000000%positive. cbn [flit EA]. f_equal. f_equal.
    cbn [pow]. lra. }
  rewrite EL. unfold fmax. cbn [EA fabs fsub flt eabs eadd eopp eltb fopp]. set (T := 1 / 10 ^ 10) in *.
  assert (HT : 0 < T) by (unfold T; apply Rdiv_lt_0_compat; [lra|apply pow_lt; lra]). clearbody T.
  replace (X i + - X j) with (X i - X j) by ring. set (d := Rabs (X i - X j)).
  match goal with |- epow ?b _ = _ => assert (EM : b = Fin (Rmax T d)) end.
  { unfold Rltb. destruct (Rlt_dec T d); f_equal; [rewrite Rmax_right; lra|rewrite Rmax_left; lra]. }
  rewrite EM. assert (HM : 0 < Rmax T d) by (pose proof (Rmax_l T d); lra). set (M := Rmax T d) in *. clearbody M.
  destruct (Req_dec (beta i) 0) as [-> |Nb].
  - unfold epow. destruct (Req_EM_T (- 0) 0); [|lra]. f_equal. unfold Rpower. replace (- 0 * ln M) with 0 by ring. now rewrite exp_0.
  - apply pow_fin; lra.
Qed.

(** C72. In one probabilistic update of the network, independently for every agent i: with probability
    1 - activity it contacts nobody, otherwise it draws its m_i contacts successively without replacement in
    proportion to max(1e-10, |x_i - x_j|)^(-homophily_i). Then every contact that is not mutual is
    reciprocated, independently, with probability r. The edges of the new network are exactly the contacts
    and the reciprocated ones: the expectation of every function f of the set of edges is the one under this
    law. *)
Theorem C72_network_law (lm : Libm EA) (q : PQ EA) (A : Type) (ops : agent_ops (F EA) A)
  (st : ad_settings (F EA)) (h : network A (F EA)) (X beta act : nat -> R) (r : R) (f : list (nat * nat) -> R) :
  lpow EA lm = epow -> llog EA lm = elog -> pq_bag q -> pq_ordered (a:=EA) (fun x : ext => exists r, x = Fin r) q ->
  settings_fit (a:=EA) st (n_agents h) -> wf h -> dir h = Incoming ->
  (forall i, (i < n_agents h)%nat -> (1 <= contact_count (a:=EA) st i < n_agents h)%nat) ->
  (forall i x, nth_error (agents h) i = Some x ->
     get_opinion ops x = Fin (X i) /\ get_activity ops x = Fin (act i) /\ 0 <= act i <= 1 /\ homophily_of (a:=EA) st i = Fin (beta i)) ->
  reciprocity st = Fin r -> 0 <= r <= 1 ->
  (forall e e', Permutation e e' -> f e = f e') ->
  expectation
    (fun us => of_edges f (update_network_probabilistic (a:=EA) lm tape_rng q ops st h us))
    (over_rows (map (fun i => row_law (act i) (closeness X beta i) (contact_count (a:=EA) st i) (n_agents h)) (seq 0 (n_agents h)))
       (fun cs => over_coins r (one_way cs) (fun sel => f (contact_pairs cs ++ map reversed sel)))).
Proof.
  intros Hp Hl Hq Ho Hf Hwf Hd Hcc HX Hr Hr01 Hperm.
  set (n := n_agents h). set (l := agents h).
  set (K := fun (cs : list (list nat)) (us : list R) => let (sel, s) := coins (a:=EA) tape_rng (Fin r) (one_way cs) us in f (contact_pairs cs ++ map reversed sel)).
  exists (n * (2 * n + 3) + n * n)%nat. intros M' HM.
  apply (expects_ext _ _ (fun us => continue K (draw_rows lm q ops st l n 0 [] us))).
  { intros us _ _. destruct (update_probabilistic_ok (a:=EA) lm tape_rng q ops st h us Hq Hf Hwf Hd) as (h' & s' & cs & s1 & R0 & E1 & E2 & E3 & E4 & E5 & E6 & E7 & E8 & E9).
    rewrite E1. cbn [of_edges]. apply draw_rows_ok in E2. rewrite Nat.sub_0_r in E2.
    change (length (agents h)) with n in E2. fold l in E2. rewrite E2. cbn [continue]. unfold K.
    rewrite Hr in E4. match type of E4 with ?t = _ => match goal with |- _ = (let (_, _) := ?t' in _) => change t' with t; rewrite E4 end end.
    apply Hperm. etransitivity; [apply Permutation_map; exact E9|]. rewrite map_map. unfold unit_edge. cbn [fst].
    match goal with |- Permutation ?a ?b => replace a with b; auto end. rewrite <- (map_id (contact_pairs cs ++ map reversed R0)) at 1. apply map_ext. now intros [? ?]. }
  apply (rows_law lm q ops st l act (closeness X beta)) with (M := (n * n)%nat); auto.
  - intros i x Ex. destruct (HX i x Ex) as (_ & H1 & H2 & _). auto.
  - intros i j Hi Hj. apply (affinity_value lm A ops st l X beta i j); auto.
    + intros j0 y Ey. now destruct (HX j0 y Ey).
    + destruct (nth_error l i) as [x|] eqn:Ex; [now destruct (HX i x Ex) as (_ & _ & _ & H)|]. apply nth_error_None in Ex. lia.
  - intros i j. unfold closeness. destruct (j =? i)%nat; [lra|]. left. apply exp_pos.
  - intros i j Hne. unfold closeness. destruct (Nat.eqb_spec j i); [contradiction|]. apply exp_pos.
  - intros cs HL HF M2 HM2. apply (coins_law r Hr01 (one_way cs) (fun sel _ => f (contact_pairs cs ++ map reversed sel)) (fun sel => f (contact_pairs cs ++ map reversed sel)) 0).
    + intros R0 M3 _. apply expects_const.
    + pose proof (one_way_length cs (length l) HF) as G. rewrite HL in G. change (length l) with n in G. lia.
Qed.

(** Two agents with opinions 0 and 1 and activities 1/2 and 1/4, m = 1, reciprocity 1/3: the edge 0 -> 1 is
    there with probability 1/2 + 1/2 * 1/4 * 1/3 = 13/24. *)
Definition c72_net : network (activity_agent ext) ext :=
  mkNet [mkActivity (Fin 0) (Fin (1/2)) (Fin 1); mkActivity (Fin 1) (Fin (1/4)) (Fin 1)] [[]; []] [[]; []] Incoming.
Definition c72_settings : ad_settings ext :=
  mkADS None (Fin 0) 1 (Fin 0) (Fin 0) (Fin 0) (Fin 1) (Fin (1/3)) (Fin 0) false false 0 nil nil nil nil false (Fin 1) (Fin 0) (Fin 0) (Fin 0).
Definition has_edge (i j : nat) (e : list (nat * nat)) : R :=
  if existsb (fun p => (fst p =? i)%nat && (snd p =? j)%nat) e then 1 else 0.
Example C72_instance :
  expectation (fun us => of_edges (has_edge 0 1) (update_network_probabilistic (a:=EA) ext_libm tape_rng (list_pq EA) (activity_ops ext) c72_settings c72_net us)) (13 / 24).
Proof.
  set (X := fun k => match k with O => 0 | _ => 1 end). set (act := fun k => match k with O => 1/2 | _ => 1/4 end).
  pose proof (C72_network_law ext_libm (list_pq EA) (activity_agent ext) (activity_ops ext) c72_settings c72_net X (fun _ => 1) act (1/3) (has_edge 0 1)
    eq_refl eq_refl (list_pq_bag EA) list_pq_ordered) as H.
  change (n_agents c72_net) with 2%nat in H.
  match type of H with _ -> _ -> _ -> _ -> _ -> _ -> _ -> _ -> expectation _ ?v => replace (13 / 24) with v end.
  - apply H; auto; try lra.
    + unfold settings_fit. cbn [m n_bots bot_m bot_homophily c72_settings length]. split; [lia|]. split; [lia|]. split; [lia|]. split; [lia|]. intros; lia.
    + unfold wf. split; [reflexivity|]. split; [reflexivity|]. split; cbn.
      * intros [|[|i]] Hi; cbn; auto; lia.
      * intros [|[|[|i]]] j; cbn; tauto.
    + intros [|[|k]] y Hy; cbn in Hy; try (injection Hy as <-; cbn; repeat split; lra). destruct k; discriminate.
    + intros e e' P. unfold has_edge. destruct (existsb _ e) eqn:E1; destruct (existsb _ e') eqn:E2; auto.
      * apply existsb_exists in E1 as (x & Hx & Ex). apply (Permutation_in _ P) in Hx. assert (existsb (fun p : nat * nat => ((fst p =? 0)%nat && (snd p =? 1)%nat)%bool) e' = true); [|congruence]. apply existsb_exists; eauto.
      * apply existsb_exists in E2 as (x & Hx & Ex). apply (Permutation_in _ (Permutation_sym P)) in Hx. assert (existsb (fun p : nat * nat => ((fst p =? 0)%nat && (snd p =? 1)%nat)%bool) e = true); [|congruence]. apply existsb_exists; eauto.
  - change (contact_count (a:=EA) c72_settings) with (fun _ : nat => 1%nat). cbn [seq map].
    unfold row_law. cbn [arrangements map flat_map app seq rev].
    assert (C01 : closeness X (fun _ => 1) 0 1 = 1).
    { unfold closeness. cbn [Nat.eqb X]. replace (Rabs (0 - 1)) with 1 by (rewrite Rabs_left; lra). rewrite Rmax_right; [apply rpower_one|].
      apply (Rmult_le_reg_r (10 ^ 10)); [apply pow_lt; lra|]. unfold Rdiv. rewrite Rmult_assoc, Rinv_l by (apply pow_nonzero; lra). rewrite !Rmult_1_l. cbn [pow]. lra. }
    assert (C10 : closeness X (fun _ => 1) 1 0 = 1).
    { unfold closeness. cbn [Nat.eqb X]. replace (Rabs (1 - 0)) with 1 by (rewrite Rabs_right; lra). rewrite Rmax_right; [apply rpower_one|].
      apply (Rmult_le_reg_r (10 ^ 10)); [apply pow_lt; lra|]. unfold Rdiv. rewrite Rmult_assoc, Rinv_l by (apply pow_nonzero; lra). rewrite !Rmult_1_l. cbn [pow]. lra. }
    assert (C00 : closeness X (fun _ => 1) 0 0 = 0) by reflexivity.
    assert (C11 : closeness X (fun _ => 1) 1 1 = 0) by reflexivity.
    cbn [wsum successive]. rewrite C00, C01, C10, C11.
    cbv [over_rows total fold_right over_coins fst snd one_way contact_pairs has_edge reversed contacted nth existsb seq length map flat_map app filter Nat.eqb andb orb negb act].
    lra.
Qed.

Print Assumptions C72_network_law.
