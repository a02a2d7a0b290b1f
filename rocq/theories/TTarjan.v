(** Property theorems C08-C11: strongly_connected_components(). *)
From Verif Require Import Base BaseFacts MNetwork SNetwork MTarjan STarjan PTarjan.
From Coq Require Import Permutation.

Section T.
Context {A W : Type}.
Notation net := (network A W).

(** C08: it terminates without undefined behaviour and partitions the agents. *)
Theorem C08_partition (g : net) : adj_ok (neigh g) ->
  exists cs, strongly_connected_components g = Ok cs /\
    Permutation (concat cs) (seq 0 (length (neigh g))) /\ Forall (fun c => c <> []) cs.
Proof.
  intros H. pose proof (tarjan_top (neigh g) H) as T. apply okp_ex in T as (st & E & T).
  exists (scc_list st). unfold strongly_connected_components. rewrite E. split; auto.
  pose proof (t_inv _ _ _ T) as I. split; [|apply I].
  apply NoDup_Permutation.
  - pose proof (i_nd _ _ I) as Hnd. now rewrite (t_stk _ _ _ T) in Hnd.
  - apply seq_NoDup.
  - intros u. pose proof (i_all _ _ I u) as Hall. rewrite (t_stk _ _ _ T) in Hall. cbn in Hall.
    rewrite <- Hall, in_seq. split.
    + intros Hu. apply (vis_lt _ _ _ I) in Hu. lia.
    + intros Hu. apply (t_vis _ _ _ T). lia.
Qed.

(** ... in particular for every network with consistent adjacency lists. *)
Theorem C08_partition_wf (g : net) : wf g ->
  exists cs, strongly_connected_components g = Ok cs /\
    Permutation (concat cs) (seq 0 (n_agents g)) /\ Forall (fun c => c <> []) cs.
Proof.
  intros (H1 & _ & _ & H4). unfold n_agents. rewrite <- H1. apply C08_partition.
  intros u w Hw. rewrite H1. eapply H4. exact Hw.
Qed.

(** C09 *)
Theorem C09_components_strongly_connected (g : net) cs c : adj_ok (neigh g) ->
  strongly_connected_components g = Ok cs -> In c cs ->
  forall u w, In u c -> In w c -> reach (neigh g) u w.
Proof.
  intros H E Hc. pose proof (tarjan_top (neigh g) H) as T. apply okp_ex in T as (st & E' & T).
  unfold strongly_connected_components in E. rewrite E' in E. cbn in E. inversion E; subst.
  pose proof (i_scc _ _ (t_inv _ _ _ T)) as HF. rewrite Forall_forall in HF. exact (HF c Hc).
Qed.

(** C10: true for graphs whose edges all have a reverse edge. Missing: arbitrary graphs, for which
    the claim is false (next theorem). *)
Theorem C10_maximal_undirected (g : net) cs : adj_ok (neigh g) -> symmetric (neigh g) ->
  strongly_connected_components g = Ok cs ->
  forall u w, u < length (neigh g) -> reach (neigh g) u w -> reach (neigh g) w u ->
  exists c, In c cs /\ In u c /\ In w c.
Proof.
  intros H Hs E u w Hu Hr _. pose proof (tarjan_top (neigh g) H) as T. apply okp_ex in T as (st & E' & T).
  unfold strongly_connected_components in E. rewrite E' in E. cbn in E. inversion E; subst.
  apply (t_sym _ _ _ T Hs u w); auto. apply (t_vis _ _ _ T). exact Hu.
Qed.

(** C11 *)
Theorem C11_one_component_strongly_connected (g : net) cs : adj_ok (neigh g) ->
  strongly_connected_components g = Ok cs -> length cs = 1 ->
  forall u w, u < length (neigh g) -> w < length (neigh g) -> reach (neigh g) u w.
Proof.
  intros H E Hl u w Hu Hw. destruct (C08_partition g H) as (cs' & E' & HP & _).
  rewrite E in E'. inversion E'; subst cs'.
  destruct cs as [|c [|c' cs]]; try discriminate.
  cbn in HP. rewrite app_nil_r in HP.
  eapply (C09_components_strongly_connected g [c] c); eauto; [cbn; auto| |];
    (eapply Permutation_in; [apply Permutation_sym; exact HP|]); apply in_seq; lia.
Qed.

End T.

(** C10: false in general. Edges 0->1, 0->2, 1->0, 2->1: every agent reaches every other, but two
    components are reported. *)
Theorem C10_maximal_refuted :
  exists (g : network unit unit) cs u w,
    wf g /\ strongly_connected_components g = Ok cs /\
    reach (neigh g) u w /\ reach (neigh g) w u /\
    ~ exists c, In c cs /\ In u c /\ In w c.
Proof.
  exists (mkNet [tt; tt; tt] [[1; 2]; [0]; [1]] [[tt; tt]; [tt]; [tt]] Incoming), [[2]; [1; 0]], 0, 2.
  split; [|split; [reflexivity|split; [|split]]].
  - unfold wf; cbn. repeat split; auto.
    + intros [|[|[|i]]] Hi; cbn in *; auto; lia.
    + intros [|[|[|[|i]]]] j; cbn; intuition lia.
  - eapply reach_step; [|apply reach_refl]. cbn; auto.
  - eapply reach_step with 1; [cbn; auto|]. eapply reach_step; [|apply reach_refl]. cbn; auto.
  - intros (c & [<-|[<-|[]]] & H1 & H2); cbn in *; intuition lia.
Qed.

(** Non-vacuity: a symmetric graph with two components, and a strongly connected directed cycle. *)
Example ex_sym : symmetric [[1]; [0; 2]; [1]; []] /\ adj_ok [[1]; [0; 2]; [1]; []].
Proof.
  unfold symmetric, adj_ok, edge. split.
  - intros [|[|[|[|[|u]]]]] [|[|[|[|w]]]]; cbn; intuition lia.
  - intros [|[|[|[|[|u]]]]] w; cbn; intuition lia.
Qed.
Example ex_sym_run : strongly_connected_components
   (mkNet [tt; tt; tt; tt] [[1]; [0; 2]; [1]; []] [[tt]; [tt; tt]; [tt]; []] Incoming)
   = Ok [[2; 1; 0]; [3]].
Proof. reflexivity. Qed.
Example ex_cycle : strongly_connected_components
   (mkNet [tt; tt; tt] [[1]; [2]; [0]] [[tt]; [tt]; [tt]] Outgoing) = Ok [[2; 1; 0]].
Proof. reflexivity. Qed.

Print Assumptions C08_partition.
Print Assumptions C08_partition_wf.
Print Assumptions C09_components_strongly_connected.
Print Assumptions C10_maximal_undirected.
Print Assumptions C11_one_component_strongly_connected.
Print Assumptions C10_maximal_refuted.
