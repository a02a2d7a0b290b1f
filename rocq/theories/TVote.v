(** Property theorems C92: expected opinions of the binary-vector Deffuant model. *)
From Verif Require Import Base BaseFacts Arith64 MRandom SRandom PRandom RFacts TRandom SProb SProb2 PProb PProb10 SLaw PLaw PLaw2 PLaw3 PLaw4 PLaw5
  MNetwork SNetwork PNetwork2 MNetGen PNetGen MAgents MDeGroot SDeGroot MDeffuant SDeffuant PDeffuant PDeffuantV PDeffuantW TNetGen TDeffuant SVote PVote.
From Coq Require Import Reals Lra Lia Psatz.
Local Open Scope R_scope.

(** C92. On a network in which everybody has the same number of neighbours and being neighbours is
    mutual, the expected number of agents holding a one in component [c] never changes, for every
    threshold and every mu. *)
Theorem C92_balanced_network (m : deffuant (a:=RA) vector_agent) d dim c k :
  use_network m = true -> @can_select RA _ true (df_net m) -> balanced (df_net m) d -> (0 < n_agents (df_net m))%nat -> 0 <= mu m <= 1 ->
  (forall x, In x (agents (df_net m)) -> length (v_opinion x) = dim) -> (Z.of_nat dim < 2147483648)%Z ->
  expectation (fun us => of_result (fun m' => votes c (agents (df_net m'))) (vector_run uni_rng k m us)) (votes c (agents (df_net m))).
Proof.
  intros Hu Hc Hb Hn Hmu HD HB. set (net0 := df_net m) in *. set (n := n_agents net0) in *.
  destruct Hc as [Hc|(Hw & HN & Hr)]; [discriminate|].
  assert (Hd : (0 < d)%nat). { destruct (Hb 0%nat Hn) as [<- _]. apply (Hr 0%nat Hn). }
  pose proof Hw as (W1 & W2 & W3 & W4).
  assert (Hsel : forall net, populated dim net0 net ->
     law 2 (select_interacting_agent_pair (a:=RA) uni_rng true net) (fun l => exists i j, l = [i; j] /\ (i < n)%nat /\ In j (nth i (neigh net0) [])) (pair_mean (neigh net0) n)).
  { intros net (l & -> & HL & _). assert (En : n_agents (with_agents net0 l) = n) by exact HL.
    pose proof (pair_law_network (with_agents net0 l)) as P. change (neigh (with_agents net0 l)) with (neigh net0) in P. change (@n_agents vector_agent R (with_agents net0 l)) with (length l) in P. replace (length l) with n in P by (symmetry; exact HL). apply P; [exact Hn|].
    right. split; [|split].
    - split; [exact (eq_trans W1 (eq_sym HL))|]. split; [exact (eq_trans W2 (eq_sym HL))|]. split.
      + intros i Hi. apply W3. cbn [agents with_agents] in Hi. rewrite HL in Hi. exact Hi.
      + intros i j Hj. cbn [agents with_agents]. rewrite HL. now apply (W4 i j).
    - change (@n_agents vector_agent (F RA) (with_agents net0 l)) with (length l). rewrite HL. exact HN.
    - intros i Hi. apply Hr. change (@n_agents vector_agent (F RA) (with_agents net0 l)) with (length l) in Hi. rewrite HL in Hi. exact Hi. }
  refine (eq_ind _ (fun e => expectation _ e) (grows_expectation _ _ _ _ _ m (vector_run_grows (homophily_threshold m) (mu m) dim true net0 2 _ _ Hmu HB Hsel _ c _ k) _) _ (Rmult_1_l _)).
  - intros p (i & j & -> & Hi & Hj). exists i, j. split; auto. split; auto. now apply (W4 i j).
  - intros l HL _ x b. apply (pair_mean_fair (neigh net0) n d); auto.
    + intros i Hi. now apply (Hb i Hi).
    + intros i j Hi Hj. now apply (Hb i Hi).
  - split; [reflexivity|]. split; [reflexivity|]. split; [exact Hu|]. exists (agents (df_net m)). split; [unfold net0; destruct (df_net m); reflexivity|]. split; [reflexivity|exact HD].
Qed.
(** C92. In particular on the square lattice that the model uses with use_network. *)
Theorem C92_lattice (m : deffuant (a:=RA) vector_agent) (d : vector_agent) L (w : R) G (l : list vector_agent) dim c k :
  generate_square_lattice d L w = Ok G -> (0 < L)%nat -> (Z.of_nat L * Z.of_nat L <= 2 ^ 53)%Z ->
  df_net m = with_agents G l -> length l = (L * L)%nat -> use_network m = true -> 0 <= mu m <= 1 ->
  (forall x, In x l -> length (v_opinion x) = dim) -> (Z.of_nat dim < 2147483648)%Z ->
  expectation (fun us => of_result (fun m' => votes c (agents (df_net m'))) (vector_run uni_rng k m us)) (votes c l).
Proof.
  intros EG HL0 HLL En HL Hu Hmu HD HB.
  destruct (lattice_can_select RA vector_agent d L w G HLL EG) as [Hc HG].
  assert (HGl : length (agents G) = length l) by (rewrite HL; exact HG).
  replace (votes c l) with (votes c (agents (df_net m))) by (now rewrite En).
  apply (C92_balanced_network m 4 dim); auto.
  - rewrite En. destruct Hc as [Hc|(Hw & HN & Hr)]; [discriminate|]. right. destruct Hw as (W1 & W2 & W3 & W4). split; [|split].
    + split; [exact (eq_trans W1 HGl)|]. split; [exact (eq_trans W2 HGl)|]. split.
      * intros i Hi. apply W3. exact (eq_ind_r (fun n => (i < n)%nat) Hi HGl).
      * intros i j Hj. cbn [agents with_agents]. rewrite <- HGl. now apply (W4 i j).
    + change (@n_agents vector_agent (F RA) (with_agents G l)) with (length l). rewrite <- HGl. exact HN.
    + intros i Hi. apply Hr. change (@n_agents vector_agent (F RA) (with_agents G l)) with (length l) in Hi. rewrite <- HGl in Hi. exact Hi.
  - rewrite En. assert (B := lattice_balanced d L w G ltac:(nia) EG). unfold balanced in B |- *. cbn [agents with_agents neigh]. rewrite <- HGl. exact B.
  - rewrite En. change (n_agents (with_agents G l)) with (length l). nia.
  - rewrite En. exact HD.
Qed.
(** C92. Without a network the expectation does not change if mu = 0. *)
Theorem C92_no_network_mu_zero (m : deffuant (a:=RA) vector_agent) dim c k :
  use_network m = false -> mu m = 0 -> (2 <= n_agents (df_net m))%nat ->
  (forall x, In x (agents (df_net m)) -> length (v_opinion x) = dim) -> (Z.of_nat dim < 2147483648)%Z ->
  expectation (fun us => of_result (fun m' => votes c (agents (df_net m'))) (vector_run uni_rng k m us)) (votes c (agents (df_net m))).
Proof.
  intros Hu Hmu Hn HD HB. set (net0 := df_net m) in *. set (n := n_agents net0) in *.
  assert (Hsel : forall net, populated dim net0 net ->
     law n (select_interacting_agent_pair (a:=RA) uni_rng false net) (fun l => In l (sublists 2 (seq 0 n))) (fun v => mean_of v (sublists 2 (seq 0 n)))).
  { intros net (l & -> & HL & _). assert (En : n_agents (with_agents net0 l) = n) by exact HL.
    pose proof (pair_law (with_agents net0 l)) as P. change (@n_agents vector_agent R (with_agents net0 l)) with (length l) in P. replace (length l) with n in P by (symmetry; exact HL). now apply P. }
  assert (Hm : 0 <= mu m <= 1) by (rewrite Hmu; lra).
  refine (eq_ind _ (fun e => expectation _ e) (grows_expectation _ _ _ _ _ m (vector_run_grows (homophily_threshold m) (mu m) dim false net0 n _ _ Hm HB Hsel _ c _ k) _) _ (Rmult_1_l _)).
  - intros p Hp. apply pair_in_seq in Hp as (i & j & -> & Hi & Hj). exists i, j. split; auto. split; [change (i < n)%nat; lia|change (j < n)%nat; lia].
  - intros l HL _ x b. rewrite (mean_ext _ (fun _ => b * x)).
    + unfold mean_of. rewrite total_const. field. rewrite pairs_number by auto. assert (1 < INR n) by (apply (lt_INR 1); lia). apply Rgt_not_eq. nra.
    + intros p _. rewrite Hmu. unfold favour. cbv zeta. destruct (Rlt_dec _ _); ring.
  - split; [reflexivity|]. split; [reflexivity|]. split; [exact Hu|]. exists (agents (df_net m)). split; [unfold net0; destruct (df_net m); reflexivity|]. split; [reflexivity|exact HD].
Qed.
(** C92. In general, without a network, an encounter changes the expectation in favour of the
    lower-numbered agents: by mu times the mean difference over all pairs close enough. *)
Theorem C92_no_network_drift (net : network vector_agent R) thr mu0 dim c :
  0 <= mu0 <= 1 -> (2 <= n_agents net)%nat ->
  (forall x, In x (agents net) -> length (v_opinion x) = dim) -> (Z.of_nat dim < 2147483648)%Z ->
  expectation (fun us => of_result (fun net' => votes c (agents net')) (encounter (a:=RA) uni_rng (update_rule_vector uni_rng thr mu0) false net us))
    (votes c (agents net) + mean_of (fun p => favour thr mu0 c (agents net) (nth 0 p 0%nat) (nth 1 p 0%nat)) (sublists 2 (seq 0 (n_agents net)))).
Proof.
  intros Hmu Hn HD HB. set (n := n_agents net) in *.
  assert (Hsel : forall net', populated dim net net' ->
     law n (select_interacting_agent_pair (a:=RA) uni_rng false net') (fun l => In l (sublists 2 (seq 0 n))) (fun v => mean_of v (sublists 2 (seq 0 n)))).
  { intros net' (l & -> & HL & _). assert (En : n_agents (with_agents net l) = n) by exact HL.
    pose proof (pair_law (with_agents net l)) as P. change (@n_agents vector_agent R (with_agents net l)) with (length l) in P. replace (length l) with n in P by (symmetry; exact HL). now apply P. }
  assert (Hsup : forall p, In p (sublists 2 (seq 0 n)) -> exists i j, p = [i; j] /\ (i < length (agents net))%nat /\ (j < length (agents net))%nat).
  { intros p Hp. apply pair_in_seq in Hp as (i & j & -> & Hi & Hj). exists i, j. split; auto. split; [change (i < n)%nat; lia|change (j < n)%nat; lia]. }
  assert (HP : populated dim net net) by (exists (agents net); split; [destruct net; reflexivity|]; split; [reflexivity|exact HD]).
  pose proof (law_expectation _ _ _ _ _ (fun net' => votes c (agents net')) (vector_encounter_law thr mu0 dim false net n _ _ Hmu HB Hsel Hsup net HP)) as G. cbv beta in G.
  cbn [agents with_agents] in G.
  rewrite (mean_ext _ (fun p => votes c (agents net) + favour thr mu0 c (agents net) (nth 0 p 0%nat) (nth 1 p 0%nat))) in G.
  - replace (votes c (agents net) + mean_of (fun p => favour thr mu0 c (agents net) (nth 0 p 0%nat) (nth 1 p 0%nat)) (sublists 2 (seq 0 n)))
      with (mean_of (fun p => votes c (agents net) + favour thr mu0 c (agents net) (nth 0 p 0%nat) (nth 1 p 0%nat)) (sublists 2 (seq 0 n))); [exact G|].
    unfold mean_of. rewrite (total_ext _ (fun p => votes c (agents net) * 1 + 1 * favour thr mu0 c (agents net) (nth 0 p 0%nat) (nth 1 p 0%nat))) by (intros; ring).
    rewrite (total_lin (fun _ => 1)), total_const. field. rewrite pairs_number by auto. assert (1 < INR n) by (apply (lt_INR 1); lia). apply Rgt_not_eq. nra.
  - intros p Hp. apply Hsup in Hp as (i & j & -> & Hi & Hj). cbn [nth].
    pose proof (update_votes thr mu0 dim (agents net) c i j 1 HD Hi Hj) as U. rewrite Rmult_1_l in U. rewrite <- U. unfold update_mean. cbv zeta.
    destruct (Rlt_dec _ thr); [|ring]. apply over_rows_ext. intros w. ring.
Qed.
(** Two agents that disagree, without a network, mu = 1/2. *)
Definition two_net : network vector_agent R := mkNet [mkVector [1%Z]; mkVector [0%Z]] [[]; []] [[]; []] Incoming.
Definition two_model : deffuant (a:=RA) vector_agent := mkDeffuant (a:=RA) (base_ctor None) 2 (1/2) false two_net.
Lemma two_pairs f : mean_of f (sublists 2 (seq 0 2)) = f [0; 1]%nat.
Proof. unfold mean_of, total. cbn. field. Qed.
Lemma two_agree z f : update_mean 2 (1/2) [mkVector [z]; mkVector [z]] 0 1 f = f [mkVector [z]; mkVector [z]].
Proof.
  unfold update_mean. cbn [nth v_opinion]. rewrite differing_same. destruct (Rlt_dec (INR 0) 2) as [_|H]; [|exfalso; apply H; cbn; lra].
  cbn [combine map component_law over_rows]. rewrite Z.eqb_refl. unfold total, settled_on. cbn [fold_right fst snd upd]. ring.
Qed.
(** C92. So "the expectation never changes" is false without a network: of two agents that disagree, 3/2
    instead of 1 hold the opinion of the first after an iteration, in expectation. *)
Theorem C92_no_network_unbiased_refuted :
  use_network two_model = false /\ votes 0 (agents (df_net two_model)) = 1 /\
  expectation (fun us => of_result (fun m' => votes 0 (agents (df_net m'))) (vector_run uni_rng 1 two_model us)) (3 / 2).
Proof.
  split; [reflexivity|]. split; [unfold votes, total; cbn; ring|].
  assert (Hmu : 0 <= 1/2 <= 1) by lra. assert (HB : (Z.of_nat 1 < 2147483648)%Z) by reflexivity.
  assert (Hsel : forall net, populated 1 two_net net ->
     law 2 (select_interacting_agent_pair (a:=RA) uni_rng false net) (fun l => In l (sublists 2 (seq 0 2))) (fun v => mean_of v (sublists 2 (seq 0 2)))).
  { intros net (l & -> & HL & _). cbn in HL. pose proof (pair_law (with_agents two_net l)) as P. change (@n_agents vector_agent R (with_agents two_net l)) with (length l) in P. rewrite HL in P. apply P. lia. }
  assert (Hsup : forall p, In p (sublists 2 (seq 0 2)) -> exists i j, p = [i; j] /\ (i < length (agents two_net))%nat /\ (j < length (agents two_net))%nat).
  { intros p Hp. apply pair_in_seq in Hp as (i & j & -> & Hi & Hj). exists i, j. split; auto. cbn. lia. }
  assert (HP : populated 1 two_net two_net) by (exists (agents two_net); split; [reflexivity|]; split; [reflexivity|]; intros x [<-|[<-|[]]]; reflexivity).
  pose proof (vector_encounter_law 2 (1/2) 1 false two_net 2 _ _ Hmu HB Hsel Hsup) as L.
  pose proof (law_expectation _ _ _ _ _ (fun net' : network vector_agent R => votes 0 (agents net'))
    (law_bind _ _ _ _ _ (encounter (a:=RA) uni_rng (update_rule_vector uni_rng 2 (1/2)) false) _ _ _ _ (L two_net HP) L)) as G. cbv beta in G.
  rewrite two_pairs in G. unfold update_mean in G at 1. cbn [nth agents two_net v_opinion] in G.
  destruct (Rlt_dec (INR (differing [1%Z] [0%Z])) 2) as [_|H] in G; [|exfalso; apply H; cbn; lra].
  cbn [combine map component_law over_rows Z.eqb] in G. unfold total at 1, settled_on at 1 in G. cbn [fold_right fst snd upd] in G.
  unfold settled_on at 1 in G. cbn [upd with_agents agents] in G. rewrite !two_pairs in G. cbn [nth] in G. rewrite !two_agree in G.
  replace (3 / 2) with ((1 + 1 / 2) / 2 * votes 0 [mkVector [1%Z]; mkVector [1%Z]] + ((1 - 1 / 2) / 2 * votes 0 [mkVector [0%Z]; mkVector [0%Z]] + 0))
    by (unfold votes, total; cbn; field).
  destruct G as (N & G). exists N. intros n Hn. specialize (G n Hn). revert G. apply expects_ext. intros us _ _.
  cbn [vector_run]. unfold vector_iteration, deffuant_iteration. cbn [homophily_threshold mu use_network df_net df_base two_model].
  unfold for_n. change (n_agents two_net) with 2%nat. cbn [for_from].
  match goal with |- context [encounter ?a ?b ?c ?d us] => generalize (encounter a b c d us) end. intros [[x t]| | |]; cbn [bind fst snd]; try reflexivity.
  match goal with |- context [encounter ?a ?b ?c ?d t] => destruct (encounter a b c d t) as [[y t']| | |] end; reflexivity.
Qed.

(** ** Non-vacuity *)
Example C92_case : exists G, generate_square_lattice (mkVector []) 3 (1:R) = Ok G /\
  let l := mkVector [1; 0]%Z :: repeat (mkVector [0; 1]%Z) 8 in
  expectation (fun us => of_result (fun m' => votes 0 (agents (df_net m'))) (vector_run uni_rng 5 (mkDeffuant (a:=RA) (base_ctor None) 3 (1/3) true (with_agents G l)) us)) 1.
Proof.
  destruct (C18_lattice vector_agent R (mkVector []) 3 1 ltac:(reflexivity)) as (G & E & _). exists G. split; auto. cbv zeta.
  set (l := mkVector [1; 0]%Z :: repeat (mkVector [0; 1]%Z) 8).
  assert (V : votes 0 l = 1) by (unfold votes, total; cbn; ring). rewrite <- V.
  apply (C92_lattice _ (mkVector []) 3 1 G l 2); auto; try (cbn; lia); try (cbn; lra).
  - intros x Hx. cbn in Hx. repeat (destruct Hx as [<-|Hx]; [reflexivity|]). destruct Hx.
Qed.
Example C92_zero_case : expectation (fun us => of_result (fun m' => votes 0 (agents (df_net m')))
   (vector_run uni_rng 7 (mkDeffuant (a:=RA) (base_ctor None) 2 0 false two_net) us)) 1.
Proof.
  assert (V : votes 0 (agents two_net) = 1) by (unfold votes, total; cbn; ring). rewrite <- V.
  apply (C92_no_network_mu_zero (mkDeffuant (a:=RA) (base_ctor None) 2 0 false two_net) 1); auto; cbn; try lia.
  intros x [<-|[<-|[]]]; reflexivity.
Qed.
Example C92_drift_case : expectation (fun us => of_result (fun net' => votes 0 (agents net')) (encounter (a:=RA) uni_rng (update_rule_vector uni_rng 2 (1/2)) false two_net us)) (3/2).
Proof.
  replace (3/2) with (votes 0 (agents two_net) + mean_of (fun p => favour 2 (1/2) 0 (agents two_net) (nth 0 p 0%nat) (nth 1 p 0%nat)) (sublists 2 (seq 0 (n_agents two_net)))).
  - apply (C92_no_network_drift two_net 2 (1/2) 1); [lra|cbn; lia| |reflexivity]. intros x [<-|[<-|[]]]; reflexivity.
  - change (n_agents two_net) with 2%nat. rewrite two_pairs. unfold favour, votes, total. cbn. destruct (Rlt_dec 1 2); lra.
Qed.

Print Assumptions C92_balanced_network.
Print Assumptions C92_lattice.
Print Assumptions C92_no_network_mu_zero.
Print Assumptions C92_no_network_drift.
Print Assumptions C92_no_network_unbiased_refuted.
