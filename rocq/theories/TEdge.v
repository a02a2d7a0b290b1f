(** Property theorems C109: the probability of each edge of the stochastic contact network of the activity-driven
    model, and how it compares with the weight of that edge in the mean-field network. *)
From Verif Require Import Base BaseFacts Arith64 MNetwork SNetwork MAgents MRandom SRandom PRandom RFacts PReservoir WRandom MActivity SActivity PActNet PActMean2 PNetwork2
  SProb SProb2 PProb PProb2 PProb9 PProb10 PProb11 TRandom TProb TProb2 TProb3 TMean SEdge PLaw PLaw2 PNetNumber PEdge.
From Coq Require Import Permutation Reals Lra.
Local Open Scope R_scope.

Lemma expectation_ext f g v : (forall us, f us = g us) -> expectation f v -> expectation g v.
Proof. intros H (N & E). exists N. intros n Hn. apply (expects_ext n g f); auto. Qed.
Lemma expectation_val f v v' : expectation f v -> v = v' -> expectation f v'.
Proof. now intros H <-. Qed.
Lemma has_edge_listed i j e : has_edge i j e = if listed (i, j) e then 1 else 0.
Proof. reflexivity. Qed.
Lemma has_edge_perm i j e e' : Permutation e e' -> has_edge i j e = has_edge i j e'.
Proof.
  intros P. rewrite !has_edge_listed. replace (listed (i, j) e') with (listed (i, j) e); auto. apply Bool.eq_iff_eq_true. rewrite !listed_in.
  split; [now apply Permutation_in|apply Permutation_in; now apply Permutation_sym].
Qed.

Section Edge.
Variables (lm : Libm EA) (q : PQ EA) (A : Type) (ops : agent_ops (F EA) A) (st : ad_settings (F EA)) (h : network A (F EA)) (X beta act : nat -> R) (r : R).
Hypotheses (Hp : lpow EA lm = epow) (Hl : llog EA lm = elog) (Hq : pq_bag q) (Ho : pq_ordered (a:=EA) (fun x : ext => exists r, x = Fin r) q).
Hypotheses (Hf : settings_fit (a:=EA) st (n_agents h)) (Hwf : wf h) (Hd : dir h = Incoming).
Hypothesis Hcc : forall i, (i < n_agents h)%nat -> (1 <= contact_count (a:=EA) st i < n_agents h)%nat.
Hypothesis HX : forall i x, nth_error (agents h) i = Some x ->
     get_opinion ops x = Fin (X i) /\ get_activity ops x = Fin (act i) /\ 0 <= act i <= 1 /\ homophily_of (a:=EA) st i = Fin (beta i).
Hypotheses (Hr : reciprocity st = Fin r) (Hr01 : 0 <= r <= 1).
Notation n := (n_agents h).
Notation k := (contact_count (a:=EA) st).
(** The probability that [i] contacts [j]. *)
Notation chance := (fun i j => act i * drawn_chance (closeness X beta i) (k i) n j).
Notation edge i j := (fun us => of_edges (has_edge i j) (update_network_probabilistic (a:=EA) lm tape_rng q ops st h us)).

(** C109. The probability that the updated network has an edge from agent i to another agent j is c(i,j) +
    (1 - c(i,j)) * r * c(j,i), where c(i,j) is i's activity times the probability that j is among the agents
    that i draws: successively, without replacement, in proportion to max(1e-10, |x_i - x_j|)^(-homophily_i). *)
Theorem C109_edge_probability i j : (i < n)%nat -> (j < n)%nat -> i <> j ->
  expectation (edge i j) (chance i j + (1 - chance i j) * r * chance j i).
Proof using Hp Hl Hq Ho Hf Hwf Hd Hcc HX Hr Hr01.
  intros Hi Hj Hne.
  pose proof (C72_network_law lm q A ops st h X beta act r (has_edge i j) Hp Hl Hq Ho Hf Hwf Hd Hcc HX Hr Hr01 (has_edge_perm i j)) as H.
  eapply expectation_val; [exact H|].
  apply edge_law; auto.
  - intros u. unfold closeness. now rewrite Nat.eqb_refl.
  - intros u v Huv. unfold closeness. destruct (Nat.eqb_spec v u); [congruence|]. apply exp_pos.
  - intros u Hu. now apply Hcc.
Qed.

(** Without reciprocity and with a homophily that is not negative, the closer of two agents is contacted at
    least as often. *)
Theorem C109_closer_more_often i j j' : r = 0 -> 0 <= beta i -> (i < n)%nat -> (j < n)%nat -> (j' < n)%nat -> i <> j -> i <> j' -> Rabs (X i - X j') <= Rabs (X i - X j) ->
  exists v v', expectation (edge i j) v /\ expectation (edge i j') v' /\ v <= v'.
Proof using Hp Hl Hq Ho Hf Hwf Hd Hcc HX Hr Hr01.
  intros Er Hb Hi Hj Hj' Hne Hne' Hc. exists (chance i j), (chance i j'). split; [|split].
  - pose proof (C109_edge_probability i j Hi Hj Hne) as H. rewrite Er in H.
    eapply expectation_val; [exact H|]. ring.
  - pose proof (C109_edge_probability i j' Hi Hj' Hne') as H. rewrite Er in H.
    eapply expectation_val; [exact H|]. ring.
  - assert (Ha : 0 <= act i). { destruct (nth_error (agents h) i) as [x|] eqn:Ex; [apply (HX i x Ex)|]. apply nth_error_None in Ex. unfold n_agents in Hi. lia. }
    apply Rmult_le_compat_l; auto. apply heavier_more_often; auto.
    + intros u _. unfold closeness. destruct (u =? i)%nat; [lra|]. left. apply exp_pos.
    + unfold closeness. destruct (Nat.eqb_spec j i); [congruence|]. destruct (Nat.eqb_spec j' i); [congruence|].
      set (T := 1 / 10 ^ 10). assert (HT : 0 < T) by (unfold T; apply Rdiv_lt_0_compat; [lra|apply pow_lt; lra]).
      assert (HM : Rmax T (Rabs (X i - X j')) <= Rmax T (Rabs (X i - X j))) by (apply Rle_max_compat_l; auto).
      assert (H0 : 0 < Rmax T (Rabs (X i - X j'))) by (pose proof (Rmax_l T (Rabs (X i - X j'))); lra).
      unfold Rpower. set (u := Rmax T (Rabs (X i - X j'))) in *. set (v := Rmax T (Rabs (X i - X j))) in *.
      assert (Hln : ln u <= ln v). { destruct HM as [HM|HM]; [left; apply ln_increasing; lra|rewrite HM; lra]. }
      assert (Hexp : - beta i * ln v <= - beta i * ln u) by nra.
      destruct Hexp as [Hexp|Hexp]; [left; now apply exp_increasing|rewrite Hexp; lra].
Qed.

(** With homophily 0 an agent contacts each of the others with probability activity * m / (n - 1). *)
Theorem C109_no_homophily i j : (i < n)%nat -> (j < n)%nat -> i <> j -> beta i = 0 -> beta j = 0 ->
  expectation (edge i j)
    (act i * (INR (k i) / INR (n - 1)) + (1 - act i * (INR (k i) / INR (n - 1))) * r * (act j * (INR (k j) / INR (n - 1)))).
Proof using Hp Hl Hq Ho Hf Hwf Hd Hcc HX Hr Hr01.
  intros Hi Hj Hne Bi Bj.
  assert (G : forall u v, (u < n)%nat -> (v < n)%nat -> u <> v -> beta u = 0 -> drawn_chance (closeness X beta u) (k u) n v = INR (k u) / INR (n - 1)).
  { intros u v Hu Hv Huv Eb. unfold drawn_chance.
    pose proof (chance_equal (closeness X beta u) 1 u v (k u) ltac:(lra)) as H. assert (Ec : closeness X beta u u = 0) by (unfold closeness; now rewrite Nat.eqb_refl). specialize (H Ec ltac:(auto) (seq 0 n)). rewrite seq_length in H. apply H; auto; try (apply in_seq; lia).
    - apply seq_NoDup.
    - intros x Hx Hxu. unfold closeness. destruct (Nat.eqb_spec x u); [congruence|]. rewrite Eb. unfold Rpower. rewrite Ropp_0, Rmult_0_l. apply exp_0.
    - now apply Hcc. }
  pose proof (C109_edge_probability i j Hi Hj Hne) as H. cbv beta in H. rewrite (G i j), (G j i) in H by auto. exact H.
Qed.

(** The mean-field model, in exact arithmetic, with the same opinions, homophilies and numbers of contacts: when
    every agent is active in every step and makes one contact, the weight that it gives to the edge is the
    probability of the edge. *)
Theorem C109_mean_field_one_contact (lmR : Libm RA) (B : Type) (opsR : agent_ops (F RA) B) (stR : ad_settings (F RA)) (lR : list B) i j :
  lpow RA lmR = Rpow -> length lR = n ->
  (forall u y, nth_error lR u = Some y -> get_opinion opsR y = X u /\ get_activity opsR y = 1 /\ homophily_of (a:=RA) stR u = beta u /\ contact_count (a:=RA) stR u = 1%nat) ->
  (forall u, (u < n)%nat -> k u = 1%nat /\ act u = 1) ->
  (i < n)%nat -> (j < n)%nat -> i <> j ->
  expectation (edge j i) (mean_weight (a:=RA) r (contact_probability (a:=RA) lmR opsR stR lR) i j).
Proof using Hp Hl Hq Ho Hf Hwf Hd Hcc HX Hr Hr01.
  intros HpR HlR HR H1 Hi Hj Hne.
  assert (G : forall u v, (u < n)%nat -> (v < n)%nat -> u <> v -> contact_probability (a:=RA) lmR opsR stR lR u v = chance u v).
  { intros u v Hu Hv Huv. cbv beta. destruct (H1 u Hu) as (-> & ->). rewrite (drawn_once _ n v Hv). rewrite <- HlR in Hu, Hv.
    assert (Eaff : forall y, (y < length lR)%nat -> affinity (a:=RA) lmR opsR stR lR u y = closeness X beta u y).
    { intros y Hy. unfold affinity, closeness. destruct (Nat.eqb_spec y u) as [->|Hne']; [reflexivity|].
      destruct (nth_error lR u) as [x|] eqn:Ex. 2:{ apply nth_error_None in Ex. lia. }
      destruct (nth_error lR y) as [z|] eqn:Ez. 2:{ apply nth_error_None in Ez. lia. }
      destruct (HR u x Ex) as (-> & _ & -> & _). destruct (HR y z Ez) as (-> & _). rewrite HpR.
      assert (EL : @MDist.lit10 RA 1 10 = 1 / 10 ^ 10).
      { unfold MDist.lit10. cbn -[IZR]. change (match (10 ^ Z.of_N 10)%Z with Zpos q0 => q0 | _ => 1%positive end) with 10000000000%positive. cbn [pow]. lra. }
      rewrite EL. unfold fmax. cbn [flt fabs fsub fopp RA]. set (T := 1 / 10 ^ 10) in *.
      assert (HT : 0 < T) by (unfold T; apply Rdiv_lt_0_compat; [lra|apply pow_lt; lra]). clearbody T.
      set (d := Rabs (X u - X y)). assert (EM : (if Rltb T d then d else T) = Rmax T d).
      { destruct (Rltb_spec T d); [rewrite Rmax_right; lra|rewrite Rmax_left; lra]. }
      match goal with |- Rpow ?b _ = _ => change b with (if Rltb T d then d else T) end. rewrite EM. unfold Rpow.
      destruct (Rlt_dec 0 (Rmax T d)) as [_|C]; [reflexivity|]. exfalso. apply C. pose proof (Rmax_l T d). lra. }
    unfold contact_probability. destruct (nth_error lR u) as [x|] eqn:Ex. 2:{ apply nth_error_None in Ex. lia. }
    destruct (HR u x Ex) as (_ & Eact & _ & Ecc). rewrite Eact, Ecc.
    assert (Hs : 0 <= share (a:=RA) lmR opsR stR lR u v <= 1) by (apply share_bounds; auto; lia).
    rewrite (rounds_R lmR HpR) by apply Hs. cbn [seq map]. rewrite Rsum_cons, Rsum_nil.
    assert (Es : share (a:=RA) lmR opsR stR lR u v = closeness X beta u v / total (closeness X beta u) (seq 0 n)).
    { unfold share. rewrite Eaff by auto. rewrite total_affinity_R. cbn [fdiv RA]. rewrite total_Rsum, HlR.
      match goal with |- _ / Rsum (map ?f ?l) = _ / Rsum (map ?g ?l') => replace (map f l) with (map g l'); [reflexivity|] end.
      apply map_ext_in. intros y Hy. apply in_seq in Hy. symmetry. apply Eaff. lia. }
    rewrite Es in *. set (s := closeness X beta u v / total (closeness X beta u) (seq 0 n)) in *. clearbody s.
    unfold fmax. cbn [fmul flt f1 RA pow Nat.add]. destruct (Rltb_spec 1 1); [lra|].
    match goal with |- ?a = ?b => change (@eq R a b) end. field. lra. }
  pose proof (C109_edge_probability j i Hj Hi ltac:(auto)) as H. cbv beta in H.
  pose proof (C45_weight_formula r (contact_probability (a:=RA) lmR opsR stR lR) i j) as E. rewrite (G i j), (G j i) in E by auto. cbv beta in E.
  eapply expectation_val; [exact H|]. symmetry. exact E.
Qed.
End Edge.

(** Three agents with opinions 0, 1 and 3. *)
Definition c109_agent (x c : R) : activity_agent ext := mkActivity (Fin x) (Fin c) (Fin 1).
Definition c109_net (c : R) : network (activity_agent ext) ext :=
  mkNet [c109_agent 0 c; c109_agent 1 c; c109_agent 3 c] [[]; []; []] [[]; []; []] Incoming.
Definition c109_settings (mm : Z) (hom r : R) : ad_settings ext :=
  mkADS None (Fin 0) mm (Fin 0) (Fin 0) (Fin 0) (Fin hom) (Fin r) (Fin 0) false false 0 [] [] [] [] false (Fin 1) (Fin 0) (Fin 0) (Fin 0).
Definition c109_opinion (i : nat) : R := match i with 0%nat => 0 | 1%nat => 1 | _ => 3 end.
(** The same in exact arithmetic, for the mean-field model. *)
Definition c109_list : list (activity_agent R) := [mkActivity 0 1 1; mkActivity 1 1 1; mkActivity 3 1 1].
Definition c109_mean_settings (mm : Z) (hom r : R) : ad_settings R :=
  mkADS None 0 mm 0 0 0 hom r 0 false true 0 [] [] [] [] false 1 0 0 0.

Section Case.
Variables (c hom r : R) (mm : Z).
Hypotheses (Hc : 0 <= c <= 1) (Hm : (mm = 1 \/ mm = 2)%Z) (Hr : 0 <= r <= 1).
Lemma c109_fit : settings_fit (a:=EA) (c109_settings mm hom r) (n_agents (c109_net c)) /\ wf (c109_net c) /\
  (forall i, (i < n_agents (c109_net c))%nat -> (1 <= contact_count (a:=EA) (c109_settings mm hom r) i < n_agents (c109_net c))%nat) /\
  forall i x, nth_error (agents (c109_net c)) i = Some x ->
     get_opinion (activity_ops (F EA)) x = Fin (c109_opinion i) /\ get_activity (activity_ops (F EA)) x = Fin c /\ 0 <= c <= 1 /\ homophily_of (a:=EA) (c109_settings mm hom r) i = Fin hom.
Proof using Hc Hm Hr.
  split; [|split; [|split]].
  - unfold settings_fit, n_agents. cbn [m n_bots bot_m bot_homophily c109_settings agents c109_net length].
    split; [lia|]. split; [lia|]. split; [lia|]. split; [lia|]. intros; lia.
  - split; [reflexivity|]. split; [reflexivity|]. split; cbn; intros [|[|[|i]]] Hi; cbn; try lia; auto; try tauto; destruct i; cbn in *; tauto.
  - intros i _. change (contact_count (a:=EA) (c109_settings mm hom r) i) with (Z.to_nat mm). change (n_agents (c109_net c)) with 3%nat. lia.
  - intros [|[|[|i]]] y Hy; cbn in Hy; try (injection Hy as <-; cbn; repeat split; lra). destruct i; discriminate.
Qed.
Notation edge i j := (fun us => of_edges (has_edge i j) (update_network_probabilistic (a:=EA) ext_libm tape_rng (list_pq EA) (activity_ops ext) (c109_settings mm hom r) (c109_net c) us)).
Lemma c109_edge i j : (i < 3)%nat -> (j < 3)%nat -> i <> j ->
  expectation (edge i j)
   (c * drawn_chance (closeness c109_opinion (fun _ => hom) i) (Z.to_nat mm) 3 j + (1 - c * drawn_chance (closeness c109_opinion (fun _ => hom) i) (Z.to_nat mm) 3 j) * r *
    (c * drawn_chance (closeness c109_opinion (fun _ => hom) j) (Z.to_nat mm) 3 i)).
Proof using Hc Hm Hr.
  intros Hi Hj Hne. destruct c109_fit as (F1 & F2 & F3 & F4).
  exact (C109_edge_probability ext_libm (list_pq EA) (activity_agent ext) (activity_ops ext) (c109_settings mm hom r) (c109_net c) c109_opinion (fun _ => hom) (fun _ => c) r
    eq_refl eq_refl (list_pq_bag EA) list_pq_ordered F1 F2 eq_refl F3 F4 eq_refl Hr i j Hi Hj Hne).
Qed.
End Case.

(** Homophily 1, one contact, activity 1/2, reciprocity 1/3: agent 0 contacts agent 1 with probability 1/2 * 3/4
    and is contacted by it with probability 1/2 * 2/3. *)
Example C109_instance :
  expectation (fun us => of_edges (has_edge 0 1) (update_network_probabilistic (a:=EA) ext_libm tape_rng (list_pq EA) (activity_ops ext) (c109_settings 1 1 (1/3)) (c109_net (1/2)) us)) (4/9).
Proof.
  eapply expectation_val; [apply (c109_edge (1/2) 1 (1/3) 1); try lra; lia|].
  change (Z.to_nat 1) with 1%nat. rewrite !drawn_once by lia. unfold total. cbn [seq fold_right].
  assert (HT : 1 / 10 ^ 10 <= 1). { apply (Rmult_le_reg_r (10 ^ 10)); [apply pow_lt; lra|]. unfold Rdiv. rewrite Rmult_assoc, Rinv_l by (apply pow_nonzero; lra). cbn [pow]. lra. }
  assert (G : forall i j d, (j =? i)%nat = false -> Rabs (c109_opinion i - c109_opinion j) = d -> 1 <= d -> closeness c109_opinion (fun _ => 1) i j = / d).
  { intros i j d E Ed Hd. unfold closeness. rewrite E, Ed, Rmax_right by lra. rewrite Rpower_Ropp. now rewrite Rpower_1 by lra. }
  assert (E0 : forall i, closeness c109_opinion (fun _ => 1) i i = 0) by (intros i; unfold closeness; now rewrite Nat.eqb_refl).
  rewrite !E0.
  rewrite (G 0%nat 1%nat 1), (G 0%nat 2%nat 3), (G 1%nat 0%nat 1), (G 1%nat 2%nat 2); try reflexivity; try lra; cbn [c109_opinion].
  - rewrite Rabs_left; lra.
  - rewrite Rabs_right; lra.
  - rewrite Rabs_left; lra.
  - rewrite Rabs_left; lra.
Qed.
(** Agent 0 contacts agent 1 (at distance 1) at least as often as agent 2 (at distance 3). *)
Example C109_closer_instance : exists v v',
  expectation (fun us => of_edges (has_edge 0 2) (update_network_probabilistic (a:=EA) ext_libm tape_rng (list_pq EA) (activity_ops ext) (c109_settings 1 1 0) (c109_net (1/2)) us)) v /\
  expectation (fun us => of_edges (has_edge 0 1) (update_network_probabilistic (a:=EA) ext_libm tape_rng (list_pq EA) (activity_ops ext) (c109_settings 1 1 0) (c109_net (1/2)) us)) v' /\ v <= v'.
Proof.
  destruct (c109_fit (1/2) 1 0 1 ltac:(lra) ltac:(lia) ltac:(lra)) as (F1 & F2 & F3 & F4).
  apply (C109_closer_more_often ext_libm (list_pq EA) (activity_agent ext) (activity_ops ext) (c109_settings 1 1 0) (c109_net (1/2)) c109_opinion (fun _ => 1) (fun _ => 1/2) 0
    eq_refl eq_refl (list_pq_bag EA) list_pq_ordered F1 F2 eq_refl F3 F4 eq_refl ltac:(lra)); try lra; try (cbn; lia).
  cbn [c109_opinion]. rewrite !Rabs_left by lra. lra.
Qed.
(** One contact and activity 1: the mean-field weight of the edge 1 -> 0. *)
Lemma c109_mean_facts mm hom r : (mm = 1)%Z -> forall u y, nth_error c109_list u = Some y ->
  get_opinion (activity_ops (F RA)) y = c109_opinion u /\ get_activity (activity_ops (F RA)) y = 1 /\ homophily_of (a:=RA) (c109_mean_settings mm hom r) u = hom /\
  contact_count (a:=RA) (c109_mean_settings mm hom r) u = 1%nat.
Proof. intros -> [|[|[|u]]] y Hy; cbn in Hy; try (injection Hy as <-; repeat split; reflexivity). destruct u; discriminate. Qed.
Example C109_mean_field_instance :
  expectation (fun us => of_edges (has_edge 1 0) (update_network_probabilistic (a:=EA) ext_libm tape_rng (list_pq EA) (activity_ops ext) (c109_settings 1 2 (1/3)) (c109_net 1) us))
    (mean_weight (a:=RA) (1/3) (contact_probability (a:=RA) real_libm (activity_ops (F RA)) (c109_mean_settings 1 2 (1/3)) c109_list) 0 1).
Proof.
  destruct (c109_fit 1 2 (1/3) 1 ltac:(lra) ltac:(lia) ltac:(lra)) as (F1 & F2 & F3 & F4).
  apply (C109_mean_field_one_contact ext_libm (list_pq EA) (activity_agent ext) (activity_ops ext) (c109_settings 1 2 (1/3)) (c109_net 1) c109_opinion (fun _ => 2) (fun _ => 1) (1/3)
    eq_refl eq_refl (list_pq_bag EA) list_pq_ordered F1 F2 eq_refl F3 F4 eq_refl ltac:(lra) real_libm _ (activity_ops (F RA)) (c109_mean_settings 1 2 (1/3)) c109_list);
    try (cbn; lia); try reflexivity.
  - exact (c109_mean_facts 1 2 (1/3) eq_refl).
  - intros u _. split; reflexivity.
Qed.

(** With two contacts it is not: three agents, homophily 0, everyone active and drawing both others, so that
    every edge is always there; the mean-field model gives each the weight 3/4 (as if the two contacts were drawn
    with replacement). *)
Theorem C109_mean_field_two_contacts_refuted :
  expectation (fun us => of_edges (has_edge 1 0) (update_network_probabilistic (a:=EA) ext_libm tape_rng (list_pq EA) (activity_ops ext) (c109_settings 2 0 0) (c109_net 1) us)) 1 /\
  mean_weight (a:=RA) 0 (contact_probability (a:=RA) real_libm (activity_ops (F RA)) (c109_mean_settings 2 0 0) c109_list) 0 1 = 3 / 4.
Proof.
  split.
  - destruct (c109_fit 1 0 0 2 ltac:(lra) ltac:(lia) ltac:(lra)) as (F1 & F2 & F3 & F4).
    eapply expectation_val.
    + apply (C109_no_homophily ext_libm (list_pq EA) (activity_agent ext) (activity_ops ext) (c109_settings 2 0 0) (c109_net 1) c109_opinion (fun _ => 0) (fun _ => 1) 0
        eq_refl eq_refl (list_pq_bag EA) list_pq_ordered F1 F2 eq_refl F3 F4 eq_refl ltac:(lra) 1 0); try (cbn; lia); reflexivity.
    + change (contact_count (a:=EA) (c109_settings 2 0 0) 1) with 2%nat. change (n_agents (c109_net 1)) with 3%nat. cbn [INR Nat.sub]. field.
  - assert (Haff : forall i j, (i < 3)%nat -> (j < 3)%nat -> affinity (a:=RA) real_libm (activity_ops (F RA)) (c109_mean_settings 2 0 0) c109_list i j = if (j =? i)%nat then 0 else 1).
    { intros i j Hi Hj. unfold affinity. destruct (j =? i)%nat; [reflexivity|].
      match goal with |- match ?e with _ => _ end = _ => destruct e eqn:E1 end; [|apply nth_error_None in E1; cbn in E1; lia].
      match goal with |- match ?e with _ => _ end = _ => destruct e eqn:E2 end; [|apply nth_error_None in E2; cbn in E2; lia].
      change (homophily_of (a:=RA) (c109_mean_settings 2 0 0) i) with (IZR 0). cbn [real_libm lpow]. cbn [fopp RA]. unfold Rpow. rewrite Ropp_0.
      match goal with |- (if Rlt_dec 0 ?b then _ else _) = _ => destruct (Rlt_dec 0 b) as [Hb|_] end.
      - unfold Rpower. rewrite Rmult_0_l. apply exp_0.
      - destruct (Req_EM_T 0 0); [reflexivity|lra]. }
    assert (Hs : forall i j, (i < 3)%nat -> (j < 3)%nat -> i <> j -> share (a:=RA) real_libm (activity_ops (F RA)) (c109_mean_settings 2 0 0) c109_list i j = 1 / 2).
    { intros i j Hi Hj Hne. unfold share. rewrite Haff by auto. rewrite total_affinity_R. change (length c109_list) with 3%nat. cbn [seq map]. unfold Rsum. cbn [fold_right]. rewrite !Haff by lia.
      rewrite (proj2 (Nat.eqb_neq j i)) by auto. cbn [fdiv RA]. match goal with |- ?a = ?b => change (@eq R a b) end. destruct i as [|[|[|i]]]; cbn [Nat.eqb]; try lia; field. }
    assert (Hcp : forall i j, (i < 3)%nat -> (j < 3)%nat -> i <> j -> contact_probability (a:=RA) real_libm (activity_ops (F RA)) (c109_mean_settings 2 0 0) c109_list i j = 3 / 4).
    { intros i j Hi Hj Hne. unfold contact_probability. match goal with |- match ?e with _ => _ end = _ => destruct e as [x|] eqn:Ex end; [|apply nth_error_None in Ex; cbn in Ex; lia].
      rewrite Hs by auto. change (contact_count (a:=RA) (c109_mean_settings 2 0 0) i) with 2%nat.
      rewrite (rounds_R real_libm eq_refl) by lra. cbn [seq map]. unfold Rsum. cbn [fold_right].
      assert (Ea : get_activity (activity_ops (F RA)) x = 1) by (destruct i as [|[|[|i]]]; cbn in Ex; try (injection Ex as <-; reflexivity); destruct i; discriminate).
      rewrite Ea. unfold fmax. cbn [fmul flt f1 RA pow Nat.add]. destruct (Rltb_spec 1 1); [lra|]. match goal with |- ?a = ?b => change (@eq R a b) end. field. }
    eapply eq_trans; [apply C45_weight_formula|]. rewrite !Hcp by lia. match goal with |- ?a = ?b => change (@eq R a b) end. lra.
Qed.

Print Assumptions C109_edge_probability.
Print Assumptions C109_closer_more_often.
Print Assumptions C109_no_homophily.
Print Assumptions C109_mean_field_one_contact.
Print Assumptions C109_mean_field_two_contacts_refuted.
