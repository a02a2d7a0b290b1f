(** Property theorems C74 (the DeGroot model always comes to rest) and C75 (the consensus value). *)
From Verif Require Import Base BaseFacts Arith64 RFacts MRandom SRandom MNetwork SNetwork PNetwork2 STarjan MNetGen TNetGen MAgents MDeGroot SDeGroot PDeGroot TDeGroot PConsensus SSteady PSteady PSteady2 PSteady3.
From Coq Require Import Reals Lra.
Local Open Scope R_scope.

Section Model.
Variable m : degroot RA.
Hypothesis HR : ready m.
Hypothesis Hst : stochastic (dg_net m).
Variable n0 : nat.
Hypothesis Hn : n_agents (dg_net m) = S n0.
Let g : network (simple_agent R) R := dg_net m.
Let X k i := nth i (iterate g k) 0.
Let Hn' : n_agents g = S n0 := Hn.
Lemma m_evolves : evolves n0 (row g) X.
Proof using Hn HR Hst. exact (X_step g n0 Hn). Qed.
Lemma m_in i p : (i <= n0)%nat -> In p (row g i) -> (fst p <= n0)%nat.
Proof using HR Hn. apply (X_in g (proj1 HR) n0 Hn). Qed.
Lemma m_nn i : (i <= n0)%nat -> Forall (fun p => 0 <= snd p) (row g i).
Proof using HR Hst Hn. apply (X_nn g (proj1 HR) Hst n0 Hn). Qed.
Lemma m_sum i : (i <= n0)%nat -> Rsum (map snd (row g i)) = 1.
Proof using HR Hst Hn. apply (X_sum g (proj1 HR) Hst n0 Hn). Qed.
Lemma m_X0 (P : R -> Prop) : Forall P (@opinions RA (dg_net m)) -> forall i, (i <= n0)%nat -> P (X 0%nat i).
Proof using Hn.
  intros H i Hi. rewrite Forall_forall in H. apply H. unfold X. cbn [iterate]. apply nth_In. unfold opinions. rewrite map_length.
  unfold n_agents in Hn. rewrite Hn. lia.
Qed.
Lemma m_share delta : keeps_share delta (dg_net m) -> forall i, (i <= n0)%nat -> exists w, In (i, w) (row g i) /\ delta <= w.
Proof using Hn. intros H i Hi. apply H. apply (Nat.lt_le_trans _ (S n0)); [lia|apply Nat.eq_le_incl; symmetry; exact Hn]. Qed.
Lemma m_delta delta : keeps_share delta (dg_net m) -> delta <= 1.
Proof using HR Hst Hn.
  intros H. destruct (m_share delta H 0%nat ltac:(lia)) as (w & Hin & Hw). pose proof (m_sum 0%nat ltac:(lia)) as S1.
  assert (A : w <= Rsum (map snd (row g 0))).
  { apply Rsum_ge_one; [|apply in_map_iff; exists (0%nat, w); auto]. apply Forall_map. apply m_nn. lia. }
  lra.
Qed.
Lemma m_range : exists lo hi, forall i, (i <= n0)%nat -> lo <= X 0%nat i <= hi.
Proof using. exists (minf (X 0%nat) n0), (maxf (X 0%nat) n0). intros i Hi. split; [now apply minf_le|now apply maxf_ge]. Qed.
(** Statements about all agents are statements about the list of opinions. *)
Lemma m_list (ys : list R) (P : R -> R -> Prop) k : length ys = n_agents (dg_net m) -> (forall i, (i <= n0)%nat -> P (X k i) (nth i ys 0)) ->
  exists m', degroot_run k m = Ok m' /\ Forall2 P (@opinions RA (dg_net m')) ys.
Proof using HR Hn.
  intros HL H. destruct (run_ok k m HR) as (m' & E & _ & HO & _). exists m'. split; auto. rewrite HO.
  assert (L : length (iterate (dg_net m) k) = length ys) by (rewrite iterate_length; auto).
  assert (H' : forall i, (i < length ys)%nat -> P (nth i (iterate (dg_net m) k) 0) (nth i ys 0)).
  { intros i Hi. apply H. pose proof (eq_trans HL Hn). lia. }
  clear -L H'. revert L H'. generalize (iterate (dg_net m) k) as xs. revert ys. 
  induction ys as [|y ys IH]; intros [|x xs] L H'; try discriminate; constructor.
  - apply (H' 0%nat). cbn. lia.
  - apply IH; [cbn in L; lia|]. intros i Hi. apply (H' (S i)). cbn. lia.
Qed.
End Model.

(** C74. The number of iterations after which the model has stopped depends only on the share that
    agents keep of their own opinion, on the width of the initial opinions and on the tolerance: not on
    the number of agents, and no connectivity is needed. *)
Theorem C74_stops_within (delta w tol : R) : 0 < delta -> 0 < tol ->
  exists T, forall (m : degroot RA) lo hi, ready m -> stochastic (dg_net m) -> keeps_share delta (dg_net m) ->
    Forall (fun x => lo <= x <= hi) (@opinions RA (dg_net m)) -> hi - lo <= w -> convergence_tol m = tol ->
    forall k, (T <= k)%nat -> exists m', degroot_run k m = Ok m' /\ degroot_finished m' = true.
Proof.
  intros Hd Ht. exists (S (steady_after delta w tol)). intros m lo hi HR Hst Hk HF Hw HT k Hk'.
  destruct k as [|k]; [lia|].
  destruct (run_ok (S k) m HR) as (m' & E & _ & HO & _ & _ & _ & HTol & _ & HD).
  exists m'. split; auto. unfold degroot_finished. apply orb_true_intro. right. rewrite HD, HTol, HT.
  change (flt RA) with Rltb.
  match goal with |- Rltb ?d _ = true => destruct (Rltb_spec d tol) as [Hlt|Hge]; auto; exfalso; apply Hge end.
  assert (G : forall (l1 l2 : list R) (acc : R), acc < tol -> Forall2 (fun x y => Rabs (x - y) < tol) l1 l2 ->
     fold_left (fmax RA) (map (fun p : R * R => Rabs (fst p - snd p)) (combine l1 l2)) acc < tol).
  { intros l1 l2 acc Ha F2. revert acc Ha. induction F2 as [|x y l1 l2 Hxy _ IH]; intros acc Ha; cbn [combine map fold_left]; auto.
    apply IH. unfold fmax. cbn [flt RA fst snd]. destruct (Rltb acc (Rabs (x - y))); auto. }
  apply G; [exact Ht|].
  destruct (n_agents (dg_net m)) as [|n0] eqn:En.
  - assert (L : forall k, length (iterate (dg_net m) k) = 0%nat) by (intros; rewrite iterate_length; exact En).
    pose proof (L k). pose proof (L (S k)). destruct (iterate (dg_net m) k); [|discriminate]. destruct (iterate (dg_net m) (S k)); [constructor|discriminate].
  - pose proof (m_delta m HR Hst n0 En delta Hk) as Hd1.
    pose proof (steady n0 (row (dg_net m)) (m_in m HR n0 En) (m_nn m HR Hst n0 En) (m_sum m HR Hst n0 En) delta (conj Hd Hd1)
      (m_share m n0 En delta Hk) _ lo hi w tol (m_evolves m HR Hst n0 En) (m_X0 m n0 En _ HF) Hw Ht k ltac:(lia)) as S1.
    cbv beta in S1.
    assert (L : forall k, length (iterate (dg_net m) k) = S n0) by (intros; rewrite iterate_length; exact En).
    clear -S1 L. assert (L1 := L k). assert (L2 := L (S k)). clear L.
    assert (S2 : forall i, (i < S n0)%nat -> Rabs (nth i (iterate (dg_net m) k) 0 - nth i (iterate (dg_net m) (S k)) 0) < tol).
    { intros i Hi. rewrite Rabs_minus_sym. apply S1. lia. }
    clear S1. revert S2 L1 L2. generalize (iterate (dg_net m) k) as l1, (iterate (dg_net m) (S k)) as l2. generalize (S n0) as n.
    induction n as [|n IH]; intros [|x l1] [|y l2] S2 L1 L2; try discriminate; constructor.
    + apply (S2 0%nat). lia.
    + apply IH; [|cbn in L1; lia|cbn in L2; lia]. intros i Hi. apply (S2 (S i)). lia.
Qed.

(** Every opinion converges, and the limits are a fixed point of the averaging. *)
Theorem C74_opinions_converge (m : degroot RA) : ready m -> stochastic (dg_net m) ->
  (forall i, (i < n_agents (dg_net m))%nat -> exists w, In (i, w) (row (dg_net m) i) /\ 0 < w) ->
  exists ys, length ys = n_agents (dg_net m) /\ opinions_tend_to m ys /\
    forall i, (i < n_agents (dg_net m))%nat -> nth i ys 0 = Rsum (map (fun p => snd p * nth (fst p) ys 0) (row (dg_net m) i)).
Proof.
  intros HR Hst Hs. destruct (n_agents (dg_net m)) as [|n0] eqn:En.
  - exists nil. split; auto. split; [|intros; lia]. intros eps He. exists 0%nat. intros k _.
    destruct (run_ok k m HR) as (m' & E & _ & HO & _). exists m'. split; auto. rewrite HO.
    assert (L : length (iterate (dg_net m) k) = 0%nat) by (rewrite iterate_length; exact En).
    destruct (iterate (dg_net m) k); [constructor|discriminate].
  - assert (exists delta, 0 < delta <= 1 /\ forall i, (i <= n0)%nat -> exists w, In (i, w) (row (dg_net m) i) /\ delta <= w) as (delta & Hd & Hshare).
    { assert (G : forall n, (n <= S n0)%nat -> exists delta, 0 < delta <= 1 /\ forall i, (i < n)%nat -> exists w, In (i, w) (row (dg_net m) i) /\ delta <= w).
      { induction n as [|n IH]; intros Hn'; [exists 1; split; [lra|intros; lia]|].
        destruct (IH ltac:(lia)) as (d & Hd & H). destruct (Hs n ltac:(lia)) as (w & Hin & Hw).
        exists (Rmin w d). pose proof (Rmin_l w d). pose proof (Rmin_r w d). split; [split; [apply Rmin_glb_lt; lra|lra]|].
        intros i Hi. destruct (Nat.eq_dec i n) as [->|]; [exists w; split; auto; lra|].
        destruct (H i ltac:(lia)) as (w' & A & B). exists w'. split; auto. lra. }
      destruct (G (S n0) (le_n _)) as (d & Hd & H). exists d. split; auto. intros i Hi. apply H. lia. }
    destruct (m_range m n0) as (lo & hi & H0).
    destruct (converges n0 (row (dg_net m)) (m_in m HR n0 En) (m_nn m HR Hst n0 En) (m_sum m HR Hst n0 En) delta Hd Hshare
      _ lo hi (m_evolves m HR Hst n0 En) H0) as (y & Hfix & Hy).
    assert (N : forall i, (i <= n0)%nat -> nth i (map y (seq 0 (S n0))) 0 = y i) by (intros i Hi; apply nth_map_seq; lia).
    exists (map y (seq 0 (S n0))). split; [now rewrite map_length, seq_length|]. split.
    + intros eps He. destruct (Hy eps He) as (T & HT). exists T. intros k Hk. apply (m_list m HR n0 En).
      * rewrite map_length, seq_length. symmetry. exact En.
      * intros i Hi. rewrite N by auto. exact (HT k Hk i Hi).
    + intros i Hi. rewrite N by lia. rewrite (Hfix i ltac:(lia)). f_equal. apply map_ext_in. intros p Hp. rewrite N; auto.
      eapply (m_in m HR n0 En i); eauto. lia.
Qed.

(** ** C75. The consensus value *)
Lemma weighted_mean_total (pi xs : list R) n : length pi = n -> length xs = n ->
  weighted_mean pi xs = total n (fun i => nth i pi 0 * nth i xs 0).
Proof.
  unfold weighted_mean, total. revert xs n. induction pi as [|p pi IH]; intros [|x xs] n H1 H2; cbn in H1, H2; subst n; try discriminate.
  - reflexivity.
  - cbn [combine map length seq]. rewrite !Rsum_cons. cbn [fst snd nth]. f_equal. rewrite (IH xs (length pi)) by lia.
    f_equal. rewrite <- seq_shift, map_map. reflexivity.
Qed.
Lemma total_nth (xs : list R) : total (length xs) (fun i => nth i xs 0) = Rsum xs.
Proof.
  unfold total. induction xs as [|x xs IH]; [reflexivity|]. cbn [length seq map nth]. rewrite !Rsum_cons. f_equal. rewrite <- seq_shift, map_map. exact IH.
Qed.

(** A stationary weighted mean of the opinions never changes. *)
Theorem C75_weighted_mean_kept (m : degroot RA) (pi : list R) k : ready m -> stationary pi (dg_net m) ->
  exists m', degroot_run k m = Ok m' /\ weighted_mean pi (@opinions RA (dg_net m')) = weighted_mean pi (@opinions RA (dg_net m)).
Proof.
  intros HR (L & _ & HP). destruct (run_ok k m HR) as (m' & E & _ & HO & _). exists m'. split; auto. rewrite HO.
  rewrite !(weighted_mean_total pi _ (n_agents (dg_net m))); auto; [|unfold opinions; now rewrite map_length|apply iterate_length].
  destruct (n_agents (dg_net m)) as [|n0] eqn:En; [reflexivity|].
  pose proof En as En2. change (@n_agents (simple_agent R) R (dg_net m) = S n0) in En2. rewrite En2 in HP.
  exact (conserved n0 (row (dg_net m)) (m_in m HR n0 En) (fun i => nth i pi 0) (fun k i => nth i (iterate (dg_net m) k) 0)
     (X_step (dg_net m) n0 En) (fun j Hj => HP j (proj2 (Nat.lt_succ_r _ _) Hj)) k).
Qed.

Definition connected (g : network (simple_agent R) R) : Prop :=
  forall i j, (i < n_agents g)%nat -> (j < n_agents g)%nat -> reach (neigh g) i j.

(** On a strongly connected network there are fixed positive weights, one per agent, such that from any
    initial opinions the model converges to the mean of these opinions with these weights: every agent
    has a say in the consensus. *)
Theorem C75_influence (g : network (simple_agent R) R) :
  wf g -> (0 < n_agents g)%nat -> positive_weights g -> stochastic g -> self_listening g -> connected g ->
  exists pi, stationary pi g /\ Forall (fun p => 0 < p) pi /\
    forall m : degroot RA, ready m -> neigh (dg_net m) = neigh g -> wts (dg_net m) = wts g ->
      opinions_tend_to m (repeat (weighted_mean pi (@opinions RA (dg_net m))) (n_agents g)).
Proof.
  intros Hwf H0 Hpos Hst Hself Hreach. destruct (n_agents g) as [|n0] eqn:En; [lia|].
  destruct (setup_consensus g n0 Hwf En Hpos) as (wmin & K & Hw & HW & HK).
  { intros i j Hi Hj. apply Hreach; auto. }
  assert (S1 : forall i, (i <= n0)%nat -> In i (map fst (row g i))).
  { intros i Hi. destruct (rows_of g i Hwf ltac:(lia)) as [_ Er]. rewrite Er. apply Hself. lia. }
  destruct (influences n0 (row g) (X_in g Hwf n0 En) (X_nn g Hwf Hst n0 En) (X_sum g Hwf Hst n0 En) S1 wmin Hw HW K HK) as (f & F1 & F2 & F3 & F4).
  set (pi := map f (seq 0 (S n0))).
  assert (N : forall i, (i <= n0)%nat -> nth i pi 0 = f i) by (intros i Hi; apply nth_map_seq; lia).
  assert (LP : length pi = S n0) by (unfold pi; now rewrite map_length, seq_length).
  exists pi. split; [|split].
  - split; [now rewrite En|]. split; [exact F2|]. rewrite En. intros j Hj. rewrite N by lia. rewrite <- (F3 j ltac:(lia)). unfold total. f_equal.
    apply map_ext_in. intros i Hi. apply in_seq in Hi. rewrite N by lia. reflexivity.
  - apply Forall_map, Forall_forall. intros i Hi. apply in_seq in Hi. apply F1. lia.
  - intros m HR E1 E2.
    assert (En' : n_agents (dg_net m) = S n0).
    { destruct HR as ((W1 & _) & _). destruct Hwf as (V1 & _). unfold n_agents in *. rewrite <- W1, E1. lia. }
    assert (ER : forall i, row (dg_net m) i = row g i) by (intros i; unfold row; now rewrite E1, E2).
    intros eps He. destruct (F4 (fun k i => nth i (iterate (dg_net m) k) 0)) with (eps := eps) as (T & HT); auto.
    { intros k i Hi. rewrite <- ER. apply (X_step (dg_net m) n0 En' k i Hi). }
    exists T. intros k Hk. apply (m_list m HR n0 En'); [rewrite repeat_length; symmetry; exact En'|].
    intros i Hi.
    assert (EV : nth i (repeat (weighted_mean pi (@opinions RA (dg_net m))) (S n0)) 0 = weighted_mean pi (@opinions RA (dg_net m))).
    { apply (repeat_spec (S n0) (weighted_mean pi (@opinions RA (dg_net m)))), nth_In. rewrite repeat_length. lia. }
    rewrite EV. rewrite (weighted_mean_total pi _ (S n0)); [|auto|unfold opinions; rewrite map_length; exact En'].
    rewrite (total_ext _ _ (fun j => f j * nth j (iterate (dg_net m) 0) 0)) by (intros j Hj; rewrite N by lia; reflexivity).
    exact (HT k i Hk Hi).
Qed.

(** Any stationary weights give the consensus value ... *)
Theorem C75_consensus_value (m : degroot RA) (pi : list R) :
  ready m -> (0 < n_agents (dg_net m))%nat -> positive_weights (dg_net m) -> stochastic (dg_net m) -> self_listening (dg_net m) ->
  connected (dg_net m) -> stationary pi (dg_net m) ->
  opinions_tend_to m (repeat (weighted_mean pi (@opinions RA (dg_net m))) (n_agents (dg_net m))).
Proof.
  intros HR H0 H1 H2 H3 H4 HS. destruct (C75_influence (dg_net m) (proj1 HR) H0 H1 H2 H3 H4) as (pi0 & _ & _ & HT).
  specialize (HT m HR eq_refl eq_refl). set (c := weighted_mean pi0 (@opinions RA (dg_net m))) in *.
  assert (E : weighted_mean pi (@opinions RA (dg_net m)) = c); [|rewrite E; exact HT].
  pose proof HS as (L & S1 & _). apply cond_eq. intros eps He.
  set (B := Rsum (map Rabs pi)).
  assert (B0 : 0 <= B). { apply Rsum_nonneg. apply Forall_map, Forall_forall. intros; apply Rabs_pos. }
  destruct (HT (eps / (B + 1)) ltac:(apply Rdiv_lt_0_compat; lra)) as (T & HT'). destruct (HT' T (le_n _)) as (m' & E & F2).
  destruct (C75_weighted_mean_kept m pi T HR HS) as (m1 & E1 & K). rewrite E in E1. injection E1 as <-. rewrite <- K.
  assert (G : forall (p xs : list R) n, length p = n -> Forall2 (fun x y => Rabs (x - y) < eps / (B + 1)) xs (repeat c n) ->
     Rabs (weighted_mean p xs - Rsum p * c) <= Rsum (map Rabs p) * (eps / (B + 1))).
  { clear. induction p as [|p0 p IH]; intros xs n Hn F2; cbn in Hn; subst n; cbn [repeat] in F2; inversion F2 as [|x y xs' ys' Hx F2']; subst.
    - unfold weighted_mean. cbn [combine map]. rewrite !Rsum_nil. rewrite Rabs_pos_eq; lra.
    - unfold weighted_mean in *. cbn [combine map]. rewrite !Rsum_cons. cbn [fst snd]. specialize (IH xs' _ eq_refl F2').
      set (a := Rsum (map (fun p1 => fst p1 * snd p1) (combine p xs'))) in *.
      replace (p0 * x + a - (p0 + Rsum p) * c) with (p0 * (x - c) + (a - Rsum p * c)) by ring.
      eapply Rle_trans; [apply Rabs_triang|]. rewrite Rabs_mult, Rmult_plus_distr_r. apply Rplus_le_compat; auto.
      apply Rmult_le_compat_l; [apply Rabs_pos|lra]. }
  specialize (G pi _ _ L F2). rewrite S1, Rmult_1_l in G. eapply Rle_lt_trans; [exact G|]. fold B.
  apply Rmult_lt_reg_r with (B + 1); [lra|]. replace (B * (eps / (B + 1)) * (B + 1)) with (B * eps) by (field; lra). nra.
Qed.

(** ... and when the weights that each agent receives sum to one as well, it is the mean of the initial
    opinions. *)
Theorem C75_mean (m : degroot RA) :
  ready m -> (0 < n_agents (dg_net m))%nat -> positive_weights (dg_net m) -> stochastic (dg_net m) -> self_listening (dg_net m) ->
  connected (dg_net m) ->
  (forall j, (j < n_agents (dg_net m))%nat -> Rsum (map (fun i => listens (dg_net m) i j) (seq 0 (n_agents (dg_net m)))) = 1) ->
  opinions_tend_to m (repeat (Rsum (@opinions RA (dg_net m)) / INR (n_agents (dg_net m))) (n_agents (dg_net m))).
Proof.
  intros HR H0 H1 H2 H3 H4 HC. set (n := n_agents (dg_net m)) in *.
  assert (PN : 0 < INR n) by (apply lt_0_INR; exact H0).
  assert (EN : forall i, (i < n)%nat -> nth i (repeat (/ INR n) n) 0 = / INR n).
  { intros i Hi. apply (repeat_spec n (/ INR n)), nth_In. now rewrite repeat_length. }
  assert (HS : stationary (repeat (/ INR n) n) (dg_net m)).
  { split; [apply repeat_length|]. split.
    - assert (forall k, Rsum (repeat (/ INR n) k) = INR k * / INR n) as ->; [|field; lra].
      clear. induction k as [|k IH]; [cbn [repeat INR]; rewrite Rsum_nil; lra|]. cbn [repeat]. rewrite Rsum_cons, IH, S_INR. lra.
    - intros j Hj. rewrite EN by exact Hj. transitivity (/ INR n * total n (fun i => listens (dg_net m) i j)).
      + rewrite <- total_scale. unfold total. f_equal. apply map_ext_in. intros i Hi. apply in_seq in Hi. rewrite EN; [reflexivity|exact (proj2 Hi)].
      + pose proof (HC j Hj) as E1. change (total n (fun i => listens (dg_net m) i j) = 1) in E1. rewrite E1. lra. }
  pose proof (C75_consensus_value m _ HR H0 H1 H2 H3 H4 HS) as G.
  assert (LO : length (@opinions RA (dg_net m)) = n) by (unfold opinions; now rewrite map_length).
  rewrite (weighted_mean_total _ _ n) in G; [|apply repeat_length|exact LO].
  rewrite (total_ext n _ (fun i => / INR n * nth i (@opinions RA (dg_net m)) 0)) in G by (intros i Hi; now rewrite EN).
  rewrite total_scale in G. rewrite <- LO in G at 2. rewrite total_nth in G. unfold Rdiv. rewrite (Rmult_comm (Rsum _)). exact G.
Qed.

(** ** Instances *)
(** Three agents, no connection between agent 0 and the others. *)
Definition islands : network (simple_agent R) R :=
  mkNet [mkSimple 0; mkSimple 1; mkSimple 5] [[0%nat]; [1%nat; 2%nat]; [2%nat; 1%nat]] [[1]; [1/2; 1/2]; [1/4; 3/4]] Incoming.
Definition dg_islands : degroot RA := mkDeGroot (a:=RA) (mkBase None 0%Z) (1/100) None islands [mkSimple 0; mkSimple 0; mkSimple 0].
Lemma islands_ready : ready dg_islands.
Proof.
  split; [|reflexivity]. split; [reflexivity|]. split; [reflexivity|]. split.
  - intros [|[|[|i]]] H; cbn in *; auto; lia.
  - intros [|[|[|[|i]]]] j H; cbn in *; intuition lia.
Qed.
Lemma islands_stochastic : stochastic islands.
Proof. intros [|[|[|i]]] H; cbn in *; try lia; split; repeat constructor; try lra; unfold Rsum; cbn; lra. Qed.
Example C74_instance : ready dg_islands /\ stochastic (dg_net dg_islands) /\ keeps_share (1/4) (dg_net dg_islands) /\
  Forall (fun x => 0 <= x <= 5) (@opinions RA (dg_net dg_islands)) /\
  (forall i, (i < n_agents (dg_net dg_islands))%nat -> exists w, In (i, w) (row (dg_net dg_islands) i) /\ 0 < w) /\
  ~ reach (neigh (dg_net dg_islands)) 0 1.
Proof.
  split; [exact islands_ready|]. split; [exact islands_stochastic|].
  assert (K : keeps_share (1/4) islands).
  { intros [|[|[|i]]] H; cbn in H; try lia; cbn; eexists; (split; [left; reflexivity|lra]). }
  split; [exact K|]. split; [repeat constructor; cbn; lra|]. split.
  - intros i Hi. destruct (K i Hi) as (w & A & B). exists w. split; auto. lra.
  - intros H. change (neigh (dg_net dg_islands)) with [[0%nat]; [1%nat; 2%nat]; [2%nat; 1%nat]] in H.
    assert (G : forall u v, reach [[0%nat]; [1%nat; 2%nat]; [2%nat; 1%nat]] u v -> u = 0%nat -> v = 0%nat).
    { intros u v HH. induction HH as [u|u v z He HH IH]; intros ->; auto. apply IH. cbn in He. intuition. }
    discriminate (G _ _ H eq_refl).
Qed.
(** The mean is reached on a ring in which everybody listens half to itself and half to the next one. *)
Definition ring3 : network (simple_agent R) R :=
  mkNet [mkSimple 0; mkSimple 1; mkSimple 5] [[0%nat; 1%nat]; [1%nat; 2%nat]; [2%nat; 0%nat]] [[1/2; 1/2]; [1/2; 1/2]; [1/2; 1/2]] Incoming.
Definition dg_ring : degroot RA := mkDeGroot (a:=RA) (mkBase None 0%Z) (1/100) None ring3 [mkSimple 0; mkSimple 0; mkSimple 0].
Example C75_instance : opinions_tend_to dg_ring [2; 2; 2].
Proof.
  pose proof (C75_mean dg_ring) as H.
  assert (E : Rsum (@opinions RA (dg_net dg_ring)) / INR (n_agents (dg_net dg_ring)) = 2) by (cbn; unfold Rsum; cbn; lra).
  rewrite E in H. apply H; clear H E.
  - split; [|reflexivity]. split; [reflexivity|]. split; [reflexivity|]. split.
    + intros [|[|[|i]]] H; cbn in *; auto; lia.
    + intros [|[|[|[|i]]]] j H; cbn in *; intuition lia.
  - cbn. lia.
  - intros [|[|[|i]]] H; cbn in *; try lia; repeat constructor; lra.
  - intros [|[|[|i]]] H; cbn in *; try lia; split; repeat constructor; try lra; unfold Rsum; cbn; lra.
  - intros [|[|[|i]]] H; cbn in *; try lia; auto.
  - assert (E01 : edge (neigh ring3) 0 1) by (cbn; auto). assert (E12 : edge (neigh ring3) 1 2) by (cbn; auto).
    assert (E20 : edge (neigh ring3) 2 0) by (cbn; auto).
    intros i j Hi Hj. cbn in Hi, Hj. change (neigh (dg_net dg_ring)) with (neigh ring3).
    destruct i as [|[|[|i]]]; [| | |lia]; destruct j as [|[|[|j]]]; try lia; eauto 6 using reach_refl, reach_step.
  - intros [|[|[|j]]] H; cbn in H; try lia; unfold listens, Rsum; cbn; lra.
Qed.
Print Assumptions C74_stops_within.
Print Assumptions C74_opinions_converge.
Print Assumptions C75_weighted_mean_kept.
Print Assumptions C75_influence.
Print Assumptions C75_consensus_value.
Print Assumptions C75_mean.
