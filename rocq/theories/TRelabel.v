(** Property theorem C106: the law of a Deffuant run does not depend on the numbering of the agents (exact arithmetic). *)
From Verif Require Import Base BaseFacts Arith64 MRandom SRandom PRandom RFacts TRandom SProb SProb2 PProb PProb10 SLaw PLaw PLaw2 PLaw3 PLaw4 PLaw5
  MNetwork SNetwork PNetwork2 MNetGen PNetGen MAgents MDeGroot SDeGroot MDeffuant SDeffuant PDeffuant PDeffuantV PDeffuantW TNetGen TDeffuant SVote PVote TLaw TVote SEquiv TEquiv SRelabel PRelabel.
From Coq Require Import Reals Lra Lia Psatz Permutation.
Local Open Scope R_scope.

Lemma relabelled_map {A B} (h : A -> B) sg l l' : relabelled sg l l' -> relabelled sg (map h l) (map h l').
Proof. intros (H1 & H2). split; [now rewrite !map_length|]. rewrite map_length. intros i Hi. now rewrite !nth_error_map, H2. Qed.

(** ** The basic model *)
Definition none : simple_agent R := mkSimple 0.
Definition meet (thr mu0 : R) (i j : nat) (l : list (simple_agent R)) : list (simple_agent R) :=
  let d := s_opinion (nth i l none) - s_opinion (nth j l none) in
  if Rltb (Rabs d) thr then
    let l1 := upd l i (mkSimple (s_opinion (nth i l none) - mu0 * d)) in upd l1 j (mkSimple (s_opinion (nth j l1 none) + mu0 * d))
  else l.
Lemma meet_length thr mu0 i j l : length (meet thr mu0 i j l) = length l.
Proof. unfold meet. cbv zeta. destruct (Rltb _ _); [now rewrite !upd_length|reflexivity]. Qed.
Lemma update_is_meet thr mu0 i j (l : list (simple_agent R)) us : (i < length l)%nat -> (j < length l)%nat ->
  update_rule_simple (a:=RA) uni_rng thr mu0 i j l us = Ok (meet thr mu0 i j l, us).
Proof.
  intros Hi Hj. unfold update_rule_simple, meet.
  assert (Ex : @vget (simple_agent (F RA)) l i = Ok (nth i l none)) by (apply (proj2 (vget_ok _ l i _)); exact (nth_error_nth' l none Hi)).
  assert (Ey : @vget (simple_agent (F RA)) l j = Ok (nth j l none)) by (apply (proj2 (vget_ok _ l j _)); exact (nth_error_nth' l none Hj)).
  rewrite Ex, Ey. cbn [bind]. cbv zeta. cbn [RA fsub fabs flt fmul fadd].
  destruct (Rltb _ thr); [|reflexivity]. rewrite vset_ok by auto. cbn [bind].
  set (l1 := upd l i (mkSimple (s_opinion (nth i l none) - mu0 * (s_opinion (nth i l none) - s_opinion (nth j l none))))). assert (L1 : (j < length l1)%nat) by (unfold l1; now rewrite upd_length).
  assert (Ez : @vget (simple_agent (F RA)) l1 j = Ok (nth j l1 none)) by (apply (proj2 (vget_ok _ l1 j _)); exact (nth_error_nth' l1 none L1)).
  match goal with |- bind (vget ?x j) _ = _ => change x with l1 end. rewrite Ez. cbn [bind]. rewrite vset_ok by exact L1. reflexivity.
Qed.
Lemma meet_sym thr mu0 i j l : (i < length l)%nat -> (j < length l)%nat -> meet thr mu0 i j l = meet thr mu0 j i l.
Proof.
  intros Hi Hj. destruct (Nat.eq_dec i j) as [->|Hne]; [reflexivity|]. unfold meet. cbv zeta.
  set (x := s_opinion (nth i l none)). set (y := s_opinion (nth j l none)). rewrite (Rabs_minus_sym y x).
  destruct (Rltb _ thr); [|reflexivity]. rewrite !nth_upd_neq by auto. fold x y. apply list_ext. intros k. rewrite !nth_error_upd, !upd_length.
  rewrite (proj2 (Nat.ltb_lt _ _) Hi), (proj2 (Nat.ltb_lt _ _) Hj).
  destruct (Nat.eqb_spec j k) as [Ejk|Hjk], (Nat.eqb_spec i k) as [Eik|Hik]; cbn [andb]; try reflexivity; try (exfalso; congruence); do 2 f_equal; ring.
Qed.
Lemma meet_relabelled n sg thr mu0 i j l l' : renumbering n sg -> length l = n -> relabelled sg l l' -> (i < n)%nat -> (j < n)%nat ->
  relabelled sg (meet thr mu0 i j l) (meet thr mu0 (sg i) (sg j) l').
Proof.
  intros Hsg HL HR Hi Hj. unfold meet. cbv zeta. rewrite !(relabelled_nth none n sg l l') by auto.
  destruct (Rltb _ thr); [|exact HR]. set (x := mkSimple _).
  assert (HR1 : relabelled sg (upd l i x) (upd l' (sg i) x)) by (apply (relabelled_upd n sg Hsg); auto).
  assert (HL1 : length (upd l i x) = n) by (now rewrite upd_length).
  rewrite (relabelled_nth none n sg _ _ j HL1 HR1 Hj). apply (relabelled_upd n sg Hsg); auto.
Qed.

(** The selection of a pair, with or without network. *)
Definition pick (use : bool) (ns : list (list nat)) (n : nat) : (list nat -> R) -> R :=
  if use then pair_mean ns n else fun v => mean_of v (sublists 2 (seq 0 n)).
Definition picked (use : bool) (ns : list (list nat)) (n : nat) (p : list nat) : Prop :=
  if use then exists i j, p = [i; j] /\ (i < n)%nat /\ In j (nth i ns []) else In p (sublists 2 (seq 0 n)).
Lemma pick_law {A} (use : bool) (net : network A R) : (2 <= n_agents net)%nat -> @can_select RA A use net ->
  law (n_agents net + 2) (select_interacting_agent_pair (a:=RA) uni_rng use net) (picked use (neigh net) (n_agents net)) (pick use (neigh net) (n_agents net)).
Proof.
  intros Hn Hc. destruct use.
  - apply law_mono with 2%nat; [|lia]. apply pair_law_network; auto. lia.
  - apply law_mono with (n_agents net); [|lia]. now apply pair_law.
Qed.
Lemma select_relist {A} (use : bool) (net : network A R) l : @can_select RA A use net -> length l = n_agents net -> @can_select RA A use (with_agents net l).
Proof. intros H HL. exact (can_select_ext (a:=RA) use net l HL H). Qed.
Lemma picked_pair {A} (use : bool) (net : network A R) p : @can_select RA A use net -> picked use (neigh net) (n_agents net) p ->
  exists i j, p = [i; j] /\ (i < n_agents net)%nat /\ (j < n_agents net)%nat.
Proof.
  intros Hc Hp. destruct use; cbn [picked] in Hp.
  - destruct Hp as (i & j & -> & Hi & Hj). exists i, j. split; auto. split; auto. destruct Hc as [|((_ & _ & _ & W) & _)]; [discriminate|]. eapply W, Hj.
  - apply pair_in_seq in Hp as (i & j & -> & Hi & Hj). exists i, j. split; auto. lia.
Qed.
Lemma pick_renumbered {A} n sg (use : bool) (net net' : network A R) : renumbering n sg -> n_agents net = n -> @can_select RA A use net ->
  (use = true -> forall i, (i < n)%nat -> Permutation (nth (sg i) (neigh net') []) (map sg (nth i (neigh net) []))) ->
  forall (F F' : nat -> nat -> R), (forall i j, (i < n)%nat -> (j < n)%nat -> F' (sg i) (sg j) = F i j) ->
  (use = false -> forall i j, (i < n)%nat -> (j < n)%nat -> F i j = F j i) ->
  pick use (neigh net) n (fun p => F (nth 0 p 0%nat) (nth 1 p 0%nat)) = pick use (neigh net') n (fun p => F' (nth 0 p 0%nat) (nth 1 p 0%nat)).
Proof.
  intros Hsg Hn Hc HP F F' HF HS. destruct use; cbn [pick].
  - apply network_pairs with sg; auto. intros i j Hj. destruct Hc as [|((_ & _ & _ & W) & _)]; [discriminate|]. rewrite <- Hn. eapply W, Hj.
  - apply free_pairs with sg; auto.
Qed.

(** Basic model: every quantity of the opinions after k iterations has the same expectation for both numberings. *)
Theorem C106_law (m m' : deffuant (a:=RA) (simple_agent R)) sg k (f : list R -> R) :
  (2 <= n_agents (df_net m))%nat -> @can_select RA _ (use_network m) (df_net m) -> @can_select RA _ (use_network m') (df_net m') ->
  renumbering (n_agents (df_net m)) sg -> df_renumbered sg m m' ->
  exists e, expectation (fun us => of_result (fun mk => f (@opinions RA (df_net mk))) (simple_run uni_rng k m us)) e /\
            expectation (fun us => of_result (fun mk => f (old_order 0 sg (@opinions RA (df_net mk)))) (simple_run uni_rng k m' us)) e.
Proof.
  intros Hn Hc Hc' Hsg (T & M & U & HR & HP). destruct m as [bs thr mu0 use net0], m' as [bs' thr' mu0' use' net0'].
  cbn [homophily_threshold mu use_network df_net] in *. subst thr' mu0' use'. set (n := n_agents net0) in *.
  assert (Hn' : n_agents net0' = n) by (destruct HR as (H1 & _); exact H1).
  set (Valid := fun l : list (simple_agent R) => length l = n).
  assert (HV : forall l, Valid l -> length l = n) by (intros l H; exact H).
  set (EU := fun i j (l : list (simple_agent R)) (v : list (simple_agent R) -> R) => v (meet thr mu0 i j l)).
  assert (HU : forall i j l, (i < n)%nat -> (j < n)%nat -> Valid l -> law 0 (update_rule_simple (a:=RA) uni_rng thr mu0 i j l) Valid (EU i j l)).
  { intros i j l Hi Hj Hl. apply law_ret; [unfold Valid; now rewrite meet_length|]. intros us. apply update_is_meet; unfold Valid in Hl; lia. }
  assert (G : forall b (net : network (simple_agent R) R), n_agents net = n -> @can_select RA _ use net ->
     law (k * (n * (n + 2 + 0))) (simple_run uni_rng k (mkDeffuant (a:=RA) b thr mu0 use net)) (running_model Valid use net thr mu0)
       (fun v => Erun EU n (pick use (neigh net) n) k b (agents net) (fun b0 l' => v (wrap use net thr mu0 b0 l')))).
  { intros b net Nn Cn. replace (mkDeffuant (a:=RA) b thr mu0 use net) with (wrap use net thr mu0 b (agents net)) by (unfold wrap; now destruct net).
    apply (run_law (update_rule_simple (a:=RA) uni_rng thr mu0) 0 Valid EU n use net (n + 2) (picked use (neigh net) n) (pick use (neigh net) n) HV HU).
    - intros l Hl. assert (Nl : n_agents (with_agents net l) = n) by exact Hl. rewrite <- Nl at 1 2 3. apply (pick_law use (with_agents net l)); [lia|]. apply select_relist; auto. now rewrite Nn.
    - intros p Hp. rewrite <- Nn in Hp |- *. now apply (picked_pair use net).
    - reflexivity.
    - intros k0 b0 l us. cbn [simple_run]. unfold simple_iteration. match goal with |- bind ?x _ = bind ?y _ => change x with y; destruct y as [[y1 vs]| | |] end; reflexivity.
    - exact Nn. }
  pose proof (law_expectation _ _ _ _ _ (fun mk => f (@opinions RA (df_net mk))) (G bs net0 eq_refl Hc)) as E1.
  pose proof (law_expectation _ _ _ _ _ (fun mk => f (old_order 0 sg (@opinions RA (df_net mk)))) (G bs' net0' Hn' Hc')) as E2.
  eexists. split; [exact E1|]. cbv beta in E2 |- *. 
  match type of E2 with expectation _ ?e2 => match goal with |- expectation _ ?e1 => replace e1 with e2; [exact E2|symmetry] end end.
  apply (Erun_agree Valid EU n sg (pick use (neigh net0) n) (pick use (neigh net0') n) (use = false)).
  - apply (pick_renumbered n sg use net0 net0' Hsg eq_refl Hc HP).
  - intros i j l l' v v' Hi Hj Hl Hl' HL HA. unfold EU. apply HA; [unfold Valid; now rewrite meet_length..|]. now apply (meet_relabelled n sg).
  - intros _ i j l v Hi Hj Hl. unfold EU. rewrite meet_sym; auto; unfold Valid in Hl; lia.
  - reflexivity.
  - exact Hn'.
  - exact HR.
  - intros b b' y y' Hy Hy' HY. unfold wrap. cbn [df_net]. f_equal. symmetry.
    apply (relabelled_old 0 n sg); [|now apply relabelled_map]. unfold opinions. rewrite map_length. exact Hy.
Qed.

(** ** Binary vectors *)
Lemma update_mean_relabelled n sg thr mu0 i j (l l' : list vector_agent) (v v' : list vector_agent -> R) : renumbering n sg -> length l = n ->
  relabelled sg l l' -> (i < n)%nat -> (j < n)%nat ->
  (forall w, length w = length (v_opinion (nth i l (mkVector []))) -> v (settled_on l i j w) = v' (settled_on l' (sg i) (sg j) w)) -> v l = v' l' ->
  length (v_opinion (nth i l (mkVector []))) = length (v_opinion (nth j l (mkVector []))) ->
  update_mean thr mu0 l i j v = update_mean thr mu0 l' (sg i) (sg j) v'.
Proof.
  intros Hsg HL HR Hi Hj HW H0 HLen. unfold update_mean. cbv zeta. rewrite !(relabelled_nth (mkVector []) n sg l l') by auto.
  set (x := v_opinion (nth i l (mkVector []))) in *. set (y := v_opinion (nth j l (mkVector []))) in *.
  destruct (Rlt_dec (INR (differing x y)) thr) as [_|_]; [|exact H0].
  assert (G : forall u w (f f' : list Z -> R), length u = length w -> (forall t, length t = length u -> f t = f' t) ->
     over_rows (map (component_law mu0) (combine u w)) f = over_rows (map (component_law mu0) (combine u w)) f').
  { clear. induction u as [|o u IH]; intros [|p w] f f' HL HF; cbn [length] in HL; try discriminate; cbn [combine map over_rows]; [now apply HF|].
    apply total_ext. intros xp _. f_equal. apply IH; [lia|]. intros t Ht. apply HF. cbn [length]. now rewrite Ht. }
  apply G; auto.
Qed.
(** Binary vectors on a network: the same. *)
Theorem C106_vector_law (m m' : deffuant (a:=RA) vector_agent) dim sg k (f : list (list Z) -> R) :
  use_network m = true -> (2 <= n_agents (df_net m))%nat -> 0 <= mu m <= 1 -> (Z.of_nat dim < 2147483648)%Z ->
  (forall x, In x (agents (df_net m)) -> length (v_opinion x) = dim) ->
  @can_select RA _ true (df_net m) -> @can_select RA _ true (df_net m') ->
  renumbering (n_agents (df_net m)) sg -> df_renumbered sg m m' ->
  exists e, expectation (fun us => of_result (fun mk => f (map v_opinion (agents (df_net mk)))) (vector_run uni_rng k m us)) e /\
            expectation (fun us => of_result (fun mk => f (old_order [] sg (map v_opinion (agents (df_net mk))))) (vector_run uni_rng k m' us)) e.
Proof.
  intros Hu Hn Hmu HB HD Hc Hc' Hsg (T & M & U & HR & HP). destruct m as [bs thr mu0 use net0], m' as [bs' thr' mu0' use' net0'].
  cbn [homophily_threshold mu use_network df_net] in *. subst thr' mu0' use' use. set (n := n_agents net0) in *.
  assert (Hn' : n_agents net0' = n) by (destruct HR as (H1 & _); exact H1).
  set (Valid := fun l : list vector_agent => length l = n /\ same_dim dim l).
  assert (HV : forall l, Valid l -> length l = n) by (intros l H; apply H).
  assert (HD0 : Valid (agents net0)) by (split; [reflexivity|exact HD]).
  assert (HD0' : Valid (agents net0')).
  { split; [exact Hn'|]. intros x Hx. assert (Hx' : In x (map (fun i => nth i (agents net0') (mkVector [])) (map sg (seq 0 n)))).
    { eapply Permutation_in; [apply Permutation_map, Permutation_sym, (renumbering_perm n sg Hsg)|]. apply In_nth with (d := mkVector []) in Hx as (i & Hi & <-).
      apply in_map_iff. exists i. split; auto. apply in_seq. unfold n_agents in Hn'. lia. }
    rewrite map_map in Hx'. apply in_map_iff in Hx' as (i & <- & Hi). apply in_seq in Hi.
    rewrite (relabelled_nth (mkVector []) n sg (agents net0) (agents net0') i eq_refl HR) by lia. apply HD. apply nth_In. unfold n, n_agents in Hi. lia. }
  set (EU := fun i j (l : list vector_agent) (v : list vector_agent -> R) => update_mean thr mu0 l i j v).
  assert (HU : forall i j l, (i < n)%nat -> (j < n)%nat -> Valid l -> law (2 * dim) (update_rule_vector (a:=RA) uni_rng thr mu0 i j l) Valid (EU i j l)).
  { intros i j l Hi Hj (HL & Hd).
    assert (Ei : nth_error l i = Some (mkVector (v_opinion (nth i l (mkVector []))))) by (rewrite (nth_error_nth' l (mkVector [])) by lia; now destruct (nth i l (mkVector []))).
    assert (Ej : nth_error l j = Some (mkVector (v_opinion (nth j l (mkVector []))))) by (rewrite (nth_error_nth' l (mkVector [])) by lia; now destruct (nth j l (mkVector []))).
    pose proof (update_law thr mu0 dim i j l _ _ Hmu Hd Ei Ej HB) as L. eapply law_weaken; [exact L|]. intros l' (H1 & H2). split; [congruence|exact H2]. }
  assert (G : forall b (net : network vector_agent R), n_agents net = n -> @can_select RA _ true net -> Valid (agents net) ->
     law (k * (n * (n + 2 + 2 * dim))) (vector_run uni_rng k (mkDeffuant (a:=RA) b thr mu0 true net)) (running_model Valid true net thr mu0)
       (fun v => Erun EU n (pick true (neigh net) n) k b (agents net) (fun b0 l' => v (wrap true net thr mu0 b0 l')))).
  { intros b net Nn Cn Vn. replace (mkDeffuant (a:=RA) b thr mu0 true net) with (wrap true net thr mu0 b (agents net)) by (unfold wrap; now destruct net).
    apply (run_law (update_rule_vector (a:=RA) uni_rng thr mu0) (2 * dim) Valid EU n true net (n + 2) (picked true (neigh net) n) (pick true (neigh net) n) HV HU).
    - intros l (Hl & _). assert (Nl : n_agents (with_agents net l) = n) by exact Hl. rewrite <- Nl at 1 2 3. apply (pick_law true (with_agents net l)); [lia|]. apply select_relist; auto. now rewrite Nn.
    - intros p Hp. rewrite <- Nn in Hp |- *. now apply (picked_pair true net).
    - reflexivity.
    - intros k0 b0 l us. cbn [vector_run]. unfold vector_iteration. match goal with |- bind ?x _ = bind ?y _ => change x with y; destruct y as [[y1 vs]| | |] end; reflexivity.
    - exact Vn. }
  pose proof (law_expectation _ _ _ _ _ (fun mk => f (map v_opinion (agents (df_net mk)))) (G bs net0 eq_refl Hc HD0)) as E1.
  pose proof (law_expectation _ _ _ _ _ (fun mk => f (old_order [] sg (map v_opinion (agents (df_net mk))))) (G bs' net0' Hn' Hc' HD0')) as E2.
  eexists. split; [exact E1|]. cbv beta in E2 |- *.
  match type of E2 with expectation _ ?e2 => match goal with |- expectation _ ?e1 => replace e1 with e2; [exact E2|symmetry] end end.
  apply (Erun_agree Valid EU n sg (pick true (neigh net0) n) (pick true (neigh net0') n) False).
  - intros F F' HF _. apply (pick_renumbered n sg true net0 net0' Hsg eq_refl Hc HP F F' HF). discriminate.
  - intros i j l l' v v' Hi Hj (Hl & Hd) (Hl' & Hd') HL HA. unfold EU.
    assert (Li : length (v_opinion (nth i l (mkVector []))) = dim) by (apply Hd, nth_In; lia).
    assert (Lj : length (v_opinion (nth j l (mkVector []))) = dim) by (apply Hd, nth_In; lia).
    apply (update_mean_relabelled n sg); auto; [|now apply HA|congruence].
    intros w Hw. apply HA.
    + split; [now rewrite settled_on_length|]. apply settled_on_dim; auto. congruence.
    + split; [now rewrite settled_on_length|]. apply settled_on_dim; auto. congruence.
    + unfold settled_on. apply (relabelled_upd n sg Hsg); auto; [now rewrite upd_length|]. now apply (relabelled_upd n sg Hsg).
  - intros [].
  - exact HD0.
  - exact HD0'.
  - exact HR.
  - intros b b' y y' (Hy & _) (Hy' & _) HY. unfold wrap. cbn [df_net agents with_agents]. f_equal. symmetry.
    apply (relabelled_old [] n sg); [|now apply relabelled_map]. rewrite map_length. exact Hy.
Qed.

(** "... and without a network": false. Two agents that disagree: the one with the smaller number prevails more often. *)
Definition exchanged (i : nat) : nat := match i with 0%nat => 1%nat | 1%nat => 0%nat | _ => i end.
Lemma exchanged_renumbering : renumbering 2 exchanged.
Proof. split; [intros [|[|i]] H; cbn; lia|intros [|[|i]] [|[|j]] Hi Hj E; cbn in *; try lia; try discriminate; reflexivity]. Qed.
Definition two_swapped : deffuant (a:=RA) vector_agent :=
  mkDeffuant (a:=RA) (base_ctor None) 2 (1/2) false (mkNet [mkVector [0%Z]; mkVector [1%Z]] [[]; []] [[]; []] Incoming).
Theorem C106_vector_without_network_refuted :
  ~ (forall (m m' : deffuant (a:=RA) vector_agent) dim sg k (f : list (list Z) -> R),
       use_network m = false -> (2 <= n_agents (df_net m))%nat -> 0 <= mu m <= 1 -> (Z.of_nat dim < 2147483648)%Z ->
       (forall x, In x (agents (df_net m)) -> length (v_opinion x) = dim) ->
       renumbering (n_agents (df_net m)) sg -> df_renumbered sg m m' ->
       exists e, expectation (fun us => of_result (fun mk => f (map v_opinion (agents (df_net mk)))) (vector_run uni_rng k m us)) e /\
                 expectation (fun us => of_result (fun mk => f (old_order [] sg (map v_opinion (agents (df_net mk))))) (vector_run uni_rng k m' us)) e).
Proof.
  intros Claim.
  set (f := fun l : list (list Z) => total (fun u => IZR (nth 0 u 0%Z)) l).
  destruct (Claim two_model two_swapped 1%nat exchanged 1%nat f eq_refl) as (e & E & E'); [cbn; lia|cbn; lra|reflexivity|intros x [<-|[<-|[]]]; reflexivity|exact exchanged_renumbering| |].
  { split; [reflexivity|]. split; [reflexivity|]. split; [reflexivity|]. split; [|discriminate]. split; [reflexivity|]. intros [|[|i]] H; [reflexivity..|cbn in H; lia]. }
  assert (Hmu : 0 <= 1/2 <= 1) by lra. assert (HB : (Z.of_nat 1 < 2147483648)%Z) by reflexivity.
  set (Valid := fun l : list vector_agent => length l = 2%nat /\ same_dim 1 l).
  assert (HU : forall i j l, (i < 2)%nat -> (j < 2)%nat -> Valid l -> law (2 * 1) (update_rule_vector (a:=RA) uni_rng 2 (1/2) i j l) Valid (update_mean 2 (1/2) l i j)).
  { intros i j l Hi Hj (HL & Hd).
    assert (Ei : nth_error l i = Some (mkVector (v_opinion (nth i l (mkVector []))))) by (rewrite (nth_error_nth' l (mkVector [])) by lia; now destruct (nth i l (mkVector []))).
    assert (Ej : nth_error l j = Some (mkVector (v_opinion (nth j l (mkVector []))))) by (rewrite (nth_error_nth' l (mkVector [])) by lia; now destruct (nth j l (mkVector []))).
    pose proof (update_law 2 (1/2) 1 i j l _ _ Hmu Hd Ei Ej HB) as L. eapply law_weaken; [exact L|]. intros l' (H1 & H2). split; [congruence|exact H2]. }
  assert (G : forall m : deffuant (a:=RA) vector_agent, homophily_threshold m = 2 -> mu m = 1/2 -> use_network m = false -> Valid (agents (df_net m)) ->
     law (1 * (2 * (4 + 2 * 1))) (vector_run uni_rng 1 m) (running_model Valid false (df_net m) 2 (1/2))
       (fun v => Erun (fun i j l v => update_mean 2 (1/2) l i j v) 2 (fun v => mean_of v (sublists 2 (seq 0 2))) 1 (df_base m) (agents (df_net m)) (fun b0 l' => v (wrap false (df_net m) 2 (1/2) b0 l')))).
  { intros [b t m0 u net] Ht Hm Hu Vm. cbn [homophily_threshold mu use_network df_net df_base] in *. subst t m0 u.
    replace (mkDeffuant (a:=RA) b 2 (1/2) false net) with (wrap false net 2 (1/2) b (agents net)) by (unfold wrap; now destruct net).
    apply (run_law (update_rule_vector (a:=RA) uni_rng 2 (1/2)) (2 * 1) Valid (fun i j l v => update_mean 2 (1/2) l i j v) 2 false net 4 (fun p => In p (sublists 2 (seq 0 2))) (fun v => mean_of v (sublists 2 (seq 0 2)))).
    - intros l H. apply H.
    - exact HU.
    - intros l (Hl & _). apply law_mono with 2%nat; [|lia]. pose proof (pair_law (with_agents net l)) as P. change (@n_agents vector_agent R (with_agents net l)) with (length l) in P. rewrite Hl in P. apply P. lia.
    - intros p Hp. apply pair_in_seq in Hp as (i & j & -> & Hi & Hj). exists i, j. split; auto. lia.
    - reflexivity.
    - intros k0 b0 l us. cbn [vector_run]. unfold vector_iteration. match goal with |- bind ?x _ = bind ?y _ => change x with y; destruct y as [[y1 vs]| | |] end; reflexivity.
    - exact Vm. }
  assert (V1 : Valid (agents (df_net two_model))) by (split; [reflexivity|intros x [<-|[<-|[]]]; reflexivity]).
  assert (V2 : Valid (agents (df_net two_swapped))) by (split; [reflexivity|intros x [<-|[<-|[]]]; reflexivity]).
  pose proof (law_expectation _ _ _ _ _ (fun mk => f (map v_opinion (agents (df_net mk)))) (G two_model eq_refl eq_refl eq_refl V1)) as D1.
  pose proof (law_expectation _ _ _ _ _ (fun mk => f (old_order [] exchanged (map v_opinion (agents (df_net mk))))) (G two_swapped eq_refl eq_refl eq_refl V2)) as D2.
  apply (expectation_unique _ _ _ E) in D1. apply (expectation_unique _ _ _ E') in D2. revert D1 D2. cbv beta. cbn [Erun Eit].
  unfold PRelabel.E1. cbv beta. rewrite !two_pairs. cbn [nth].
  cbn [agents df_net two_model two_swapped two_net].
  assert (S : forall (x y : Z) (h : list vector_agent -> R), (x =? y)%Z = false -> update_mean 2 (1/2) [mkVector [x]; mkVector [y]] 0 1 h =
     3/4 * h [mkVector [x]; mkVector [x]] + 1/4 * h [mkVector [y]; mkVector [y]]).
  { intros x y h Hxy. unfold update_mean. cbn [nth v_opinion]. assert (Dx : differing [x] [y] = 1%nat) by (unfold differing; cbn; now rewrite Hxy). rewrite Dx.
    destruct (Rlt_dec (INR 1) 2) as [_|H]; [|exfalso; apply H; cbn; lra]. cbn [combine map component_law over_rows]. rewrite Hxy.
    unfold total, settled_on. cbn [fold_right fst snd upd]. field. }
  rewrite !S by reflexivity. rewrite !two_pairs. cbn [nth]. rewrite !two_agree. unfold wrap, old_order. cbn [df_net agents with_agents map v_opinion length seq nth exchanged].
  unfold f, total. cbn. intros D1 D2. lra.
Qed.

(** ** Non-vacuity *)
Definition listed_model (use first : bool) : deffuant (a:=RA) (simple_agent R) :=
  mkDeffuant (a:=RA) (base_ctor None) 1 (1/4) use
    (mkNet (if first then [mkSimple 0; mkSimple (1/2); mkSimple 3] else [mkSimple 3; mkSimple 0; mkSimple (1/2)])
           (if first then [[1]; [0; 2]; [0; 1]] else [[2; 1]; [2]; [0; 1]])%nat (if first then [[1]; [1; 1]; [1; 1]] else [[1; 1]; [1]; [1; 1]]) Incoming).
Lemma listed_selects use b : @can_select RA _ use (df_net (listed_model use b)).
Proof.
  destruct use; [|now left]. right. destruct b; (split; [|split; [cbn; lia|]]).
  1,3: split; [reflexivity|]; split; [reflexivity|]; split;
    [intros [|[|[|i]]] Hi; try reflexivity; cbn in Hi; lia|intros [|[|[|[|i]]]] j Hj; cbn in Hj |- *; intuition lia].
  all: intros [|[|[|i]]] Hi; cbn in Hi |- *; split; lia.
Qed.
Lemma listed_renumbered use : df_renumbered turn (listed_model use true) (listed_model use false).
Proof.
  split; [reflexivity|]. split; [reflexivity|]. split; [reflexivity|]. split.
  - split; [reflexivity|]. intros [|[|[|i]]] H; [reflexivity..|cbn in H; lia].
  - intros _ [|[|[|i]]] H; cbn in H |- *; [apply Permutation_refl|apply perm_swap||apply Permutation_refl|apply perm_swap||apply Permutation_refl|lia].
Qed.
Example C106_instance use k f : exists e,
  expectation (fun us => of_result (fun mk => f (@opinions RA (df_net mk))) (simple_run uni_rng k (listed_model use true) us)) e /\
  expectation (fun us => of_result (fun mk => f (old_order 0 turn (@opinions RA (df_net mk)))) (simple_run uni_rng k (listed_model use false) us)) e.
Proof. apply (C106_law (listed_model use true) (listed_model use false) turn k f); [cbn; lia|apply listed_selects|apply listed_selects|exact turn_renumbering|apply listed_renumbered]. Qed.
Definition listed_vector (first : bool) : deffuant (a:=RA) vector_agent :=
  mkDeffuant (a:=RA) (base_ctor None) 2 (1/4) true
    (mkNet (if first then [mkVector [0; 1]; mkVector [1; 1]; mkVector [1; 0]]%Z else [mkVector [1; 0]; mkVector [0; 1]; mkVector [1; 1]]%Z)
           (if first then [[1]; [0; 2]; [0; 1]] else [[2; 1]; [2]; [0; 1]])%nat (if first then [[1]; [1; 1]; [1; 1]] else [[1; 1]; [1]; [1; 1]]) Incoming).
Example C106_vector_instance k f : exists e,
  expectation (fun us => of_result (fun mk => f (map v_opinion (agents (df_net mk)))) (vector_run uni_rng k (listed_vector true) us)) e /\
  expectation (fun us => of_result (fun mk => f (old_order [] turn (map v_opinion (agents (df_net mk))))) (vector_run uni_rng k (listed_vector false) us)) e.
Proof.
  assert (HS : forall b, @can_select RA _ true (df_net (listed_vector b))).
  { intros b. right. destruct b; (split; [|split; [cbn; lia|]]).
    1,3: split; [reflexivity|]; split; [reflexivity|]; split;
      [intros [|[|[|i]]] Hi; try reflexivity; cbn in Hi; lia|intros [|[|[|[|i]]]] j Hj; cbn in Hj |- *; intuition lia].
    all: intros [|[|[|i]]] Hi; cbn in Hi |- *; split; lia. }
  apply (C106_vector_law (listed_vector true) (listed_vector false) 2 turn k f); auto; [cbn; lia|cbn; lra|reflexivity| |exact turn_renumbering|].
  - intros x [<-|[<-|[<-|[]]]]; reflexivity.
  - split; [reflexivity|]. split; [reflexivity|]. split; [reflexivity|]. split.
    + split; [reflexivity|]. intros [|[|[|i]]] H; [reflexivity..|cbn in H; lia].
    + intros _ [|[|[|i]]] H; cbn in H |- *; [apply Permutation_refl|apply perm_swap||apply Permutation_refl|apply perm_swap||apply Permutation_refl|lia].
Qed.
Print Assumptions C106_law.
Print Assumptions C106_vector_law.
Print Assumptions C106_vector_without_network_refuted.
