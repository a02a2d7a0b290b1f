(** Expectations over whole runs of the Deffuant model without a network. *)
From Verif Require Import Base BaseFacts Arith64 MRandom SRandom PRandom RFacts TRandom SProb SProb2 PProb PProb10 SLaw PLaw PLaw2 PLaw3
  MNetwork SNetwork PNetwork2 MAgents MDeGroot SDeGroot MDeffuant SDeffuant PDeffuant TDeffuant.
From Coq Require Import Reals Lra Lia Psatz.
Local Open Scope R_scope.

Lemma list_ext {A} (l l' : list A) : (forall k, nth_error l k = nth_error l' k) -> l = l'.
Proof.
  revert l'. induction l as [|x l IH]; intros [|y l'] H; auto.
  - specialize (H 0%nat). discriminate.
  - specialize (H 0%nat). discriminate.
  - f_equal; [specialize (H 0%nat); cbn in H; congruence|]. apply IH. intros k. exact (H (S k)).
Qed.
Notation sag := (simple_agent R).
Lemma update_moves (thr mu : R) i j (l : list sag) s : (i < length l)%nat -> (j < length l)%nat -> i <> j ->
  within thr (map s_opinion l) ->
  update_rule_simple (a:=RA) uni_rng thr mu i j l s = Ok (moved_agents mu i j l, s).
Proof.
  intros Hi Hj Hne HW. destruct (@update_simple_ok RA uni_rng thr mu i j l s Hi Hj) as (l' & E & HL & HM).
  rewrite E. f_equal. f_equal. unfold moved_agents.
  assert (Hx : nth_error (map s_opinion l) i = Some (nth i (map s_opinion l) 0)) by (apply nth_error_nth'; now rewrite map_length).
  assert (Hy : nth_error (map s_opinion l) j = Some (nth j (map s_opinion l) 0)) by (apply nth_error_nth'; now rewrite map_length).
  destruct HM as (M1 & M2 & M3). specialize (M3 _ _ Hx Hy). cbn [RA fsub fabs flt fmul fadd] in M3.
  assert (Hc : Rabs (nth i (map s_opinion l) 0 - nth j (map s_opinion l) 0) < thr).
  { apply (within_close thr (map s_opinion l)); auto; apply nth_In; now rewrite map_length. }
  revert M3. cbv zeta. destruct (Rltb_spec (Rabs (nth i (map s_opinion l) 0 - nth j (map s_opinion l) 0)) thr) as [_|]; [|contradiction].
  intros [M3 _]. destruct (M3 Hne) as [N1 N2].
  assert (Q : map s_opinion l' = moved mu i j (map s_opinion l)).
  { apply list_ext. intros k. unfold moved. rewrite nth_error_upd, upd_length, map_length.
    destruct (Nat.eqb_spec j k) as [<-|Njk]; [rewrite (proj2 (Nat.ltb_lt _ _) Hj); cbn [andb]; exact N2|]. cbn [andb].
    rewrite nth_error_upd, map_length. destruct (Nat.eqb_spec i k) as [<-|Nik]; [rewrite (proj2 (Nat.ltb_lt _ _) Hi); cbn [andb]; exact N1|]. cbn [andb].
    apply M2; congruence. }
  rewrite <- Q, map_map. rewrite <- (map_id l') at 1. apply map_ext. now intros [x].
Qed.
Lemma moved_agents_length mu i j l : length (moved_agents mu i j l) = length l.
Proof. unfold moved_agents. now rewrite map_length, moved_length, map_length. Qed.
Lemma moved_agents_opinions mu i j l : map s_opinion (moved_agents mu i j l) = moved mu i j (map s_opinion l).
Proof. unfold moved_agents. rewrite map_map. cbn. apply map_id. Qed.

Section Run.
Variables (n : nat) (thr mu0 : R).
Hypothesis Hn : (2 <= n)%nat.
Hypothesis Hmu : 0 <= mu0 <= 1.
(** The networks that a run goes through. *)
Definition close (net : network sag R) : Prop := n_agents net = n /\ within thr (map s_opinion (agents net)).

Lemma encounter_law (net : network sag R) : close net ->
  law n (encounter (a:=RA) uni_rng (update_rule_simple uni_rng thr mu0) false net) close
    (fun v => mean_of (fun p => v (with_agents net (moved_agents mu0 (nth 0 p 0%nat) (nth 1 p 0%nat) (agents net)))) (sublists 2 (seq 0 n))).
Proof using Hn Hmu.
  intros [HN HW]. unfold encounter.
  pose proof (pair_law net ltac:(lia)) as L. rewrite HN in L.
  set (Q := fun (l : list nat) (s : list R) => i1 <- vget l 0 ;; i2 <- vget l 1 ;;
     '(ag, s) <- update_rule_simple (a:=RA) uni_rng thr mu0 i1 i2 (agents net) s ;; Ok (with_agents net ag, s)).
  apply law_ext with (fun us => bind (select_interacting_agent_pair (a:=RA) uni_rng false net us) (fun r => Q (fst r) (snd r))).
  2:{ intros us. match goal with |- bind ?x _ = bind ?y _ => change y with x; destruct x as [[l s]| | |] end; reflexivity. }
  replace n with (n + 0)%nat at 1 by lia.
  apply (law_bind _ _ n 0 (select_interacting_agent_pair (a:=RA) uni_rng false net) Q (fun l => In l (sublists 2 (seq 0 n))) close
     (fun v => mean_of v (sublists 2 (seq 0 n))) (fun p v => v (with_agents net (moved_agents mu0 (nth 0 p 0%nat) (nth 1 p 0%nat) (agents net))))); [exact L|].
  intros p Hp. apply pair_in_seq in Hp as (i & j & -> & Hi & Hj). unfold n_agents in HN. cbn [nth]. apply law_ret.
  - split; [unfold n_agents; cbn [agents with_agents]; now rewrite moved_agents_length|]. cbn [agents with_agents].
    rewrite moved_agents_opinions. apply within_moved; auto; rewrite map_length; lia.
  - intros us. unfold Q. cbn [vget nth_error bind]. rewrite update_moves by (auto; lia). reflexivity.
Qed.

Lemma encounter_grows (q : list R -> R) c :
  (forall xs, length xs = n -> mean_of (fun p => q (moved mu0 (nth 0 p 0%nat) (nth 1 p 0%nat) xs)) (sublists 2 (seq 0 n)) = c * q xs) ->
  grows n (encounter (a:=RA) uni_rng (update_rule_simple uni_rng thr mu0) false) close (fun net => q (map s_opinion (agents net))) c.
Proof using Hn Hmu.
  intros Hq. eapply grows_law; [apply encounter_law|]. intros net b [HN HW]. cbv beta.
  rewrite (mean_ext _ (fun p => b * q (moved mu0 (nth 0 p 0%nat) (nth 1 p 0%nat) (map s_opinion (agents net))))).
  2:{ intros p _. cbn [agents with_agents]. now rewrite moved_agents_opinions. }
  rewrite Rmult_assoc, <- (Hq (map s_opinion (agents net))) by (now rewrite map_length).
  unfold mean_of. rewrite (total_ext _ (fun p => b * q (moved mu0 (nth 0 p 0%nat) (nth 1 p 0%nat) (map s_opinion (agents net))) + 0 * 0)) by (intros; ring).
  rewrite (total_lin _ (fun _ => 0)). unfold Rdiv. ring.
Qed.

(** A model with these parameters. *)
Definition running (m : deffuant (a:=RA) sag) : Prop :=
  homophily_threshold m = thr /\ mu m = mu0 /\ use_network m = false /\ close (df_net m).
Lemma iteration_grows (q : list R -> R) c :
  (forall xs, length xs = n -> mean_of (fun p => q (moved mu0 (nth 0 p 0%nat) (nth 1 p 0%nat) xs)) (sublists 2 (seq 0 n)) = c * q xs) ->
  grows (n * n) (simple_iteration uni_rng) running (fun m => q (map s_opinion (agents (df_net m)))) (c ^ n).
Proof using Hn Hmu.
  intros Hq m (E1 & E2 & E3 & HC) b K M HK M' HM.
  destruct m as [bs t m0 use net]. cbn [homophily_threshold mu use_network df_net] in E1, E2, E3, HC |- *. subst t m0 use. pose proof HC as [HN _].
  unfold simple_iteration, deffuant_iteration. cbn [homophily_threshold mu use_network df_net df_base]. unfold for_n.
  match goal with |- context [for_from 0 ?x] => change x with (@n_agents sag R net) end. rewrite HN.
  set (body := fun (_ : nat) (st : network sag R * list R) => let '(network, s) := st in encounter (a:=RA) uni_rng (update_rule_simple uni_rng thr mu0) false network s).
  set (wrap := fun net1 : network sag R => mkDeffuant (a:=RA) (base_iteration bs) thr mu0 false net1).
  apply (expects_ext _ _ (fun us => continue (fun net t => K (wrap net) t) (for_from 0 n body (net, us)))).
  { intros us _ _. match goal with |- continue _ (bind ?x _) = continue _ ?y => change x with y; destruct y as [[net' t]| | |] end; reflexivity. }
  assert (G : grows (n * n) (fun x us => for_from 0 n body (x, us)) close (fun net => q (map s_opinion (agents net))) (c ^ n)).
  { apply grows_for. intros j. exact (encounter_grows q c Hq). }
  apply (G net HC b (fun net t => K (wrap net) t) M); auto.
  intros net1 Hnet M1 HM1. apply (HK (wrap net1)); auto. repeat (split; [reflexivity|]). exact Hnet.
Qed.
Lemma run_grows (q : list R -> R) c k :
  (forall xs, length xs = n -> mean_of (fun p => q (moved mu0 (nth 0 p 0%nat) (nth 1 p 0%nat) xs)) (sublists 2 (seq 0 n)) = c * q xs) ->
  grows (k * (n * n)) (simple_run uni_rng k) running (fun m => q (map s_opinion (agents (df_net m)))) (c ^ (k * n)).
Proof using Hn Hmu.
  intros Hq. induction k as [|k IH]; cbn [Nat.mul].
  - apply grows_ret. reflexivity.
  - rewrite pow_add. apply grows_ext with (fun m us => bind (simple_iteration uni_rng m us) (fun r => simple_run uni_rng k (fst r) (snd r))).
    + apply (grows_bind (n * n) (k * (n * n)) (simple_iteration uni_rng) (simple_run uni_rng k)); auto. now apply iteration_grows.
    + intros m us _. cbn [simple_run]. now destruct (simple_iteration uni_rng m us) as [[m' s']| | |].
Qed.
End Run.
