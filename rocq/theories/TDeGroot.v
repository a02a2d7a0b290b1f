(** Property theorems C25-C28: the DeGroot model. *)
From Verif Require Import Base BaseFacts Arith64 RFacts MNetwork SNetwork MTarjan STarjan TTarjan MAgents MDeGroot SDeGroot PDeGroot PConsensus.
From Coq Require Import Reals Lra.

(** C25. One synchronous averaging step, in any arithmetic. *)
Theorem C25_synchronous_step (a : Arith) (m : degroot a) : ready m ->
  exists m', degroot_iteration m = Ok m' /\ ready m' /\
    n_agents (dg_net m') = n_agents (dg_net m) /\
    (forall i, get_neighbours (dg_net m') i = get_neighbours (dg_net m) i) /\
    (forall i, get_weights (dg_net m') i = get_weights (dg_net m) i) /\
    dir (dg_net m') = dir (dg_net m) /\
    iterations (dg_base m') = ((iterations (dg_base m) + 1) mod 2 ^ 64)%Z /\
    max_iterations (dg_base m') = max_iterations (dg_base m) /\
    convergence_tol m' = convergence_tol m /\
    forall i, i < n_agents (dg_net m) ->
      nth_error (opinions (dg_net m')) i =
        Some (weighted_sum (opinions (dg_net m)) (row (dg_net m) i)).
Proof.
  intros HR. pose proof (iteration_ok a m HR) as E. eexists. split; [exact E|].
  split; [eapply ready_next; eauto|]. cbn [dg_net dg_base convergence_tol].
  split; [unfold n_agents; cbn [agents with_agents]; rewrite map_length; apply averaged_length|].
  repeat (split; [reflexivity|]). intros i Hi. rewrite opinions_with_agents. unfold averaged.
  rewrite nth_error_map_seq. destruct (Nat.ltb_spec i (n_agents (dg_net m))); [reflexivity|lia].
Qed.

(** The constructor makes a model that is ready, with opinions i/n. *)
Theorem C25_constructor (a : Arith) max tol (g : network (simple_agent (F a)) (F a)) : wf g ->
  exists m w, degroot_ctor max tol g = Ok (m, w) /\ ready m /\
    neigh (dg_net m) = neigh g /\ wts (dg_net m) = wts g /\ dir (dg_net m) = dir g /\
    n_agents (dg_net m) = n_agents g /\
    iterations (dg_base m) = 0%Z /\
    max_iterations (dg_base m) = option_map (fun limit => (limit mod 2 ^ 64)%Z) max /\
    convergence_tol m = tol /\ max_opinion_diff m = None /\
    (forall i, i < n_agents g -> nth_error (opinions (dg_net m)) i =
       Some (fdiv a (fofZ a (Z.of_nat i)) (fofZ a (Z.of_nat (n_agents g))))) /\
    (w = None <-> exists c, strongly_connected_components g = Ok [c]).
Proof.
  intros Hw. unfold degroot_ctor. destruct (C08_partition_wf g Hw) as (cs & E & _). rewrite E. cbn [bind].
  rewrite spread_ok. cbn [bind]. do 2 eexists. split; [reflexivity|]. cbn [dg_net dg_base convergence_tol max_opinion_diff agents_current_copy].
  destruct Hw as (W1 & W2 & W3 & W4). split; [|split; [reflexivity|split; [reflexivity|split; [reflexivity|]]]].
  - unfold ready. cbn [dg_net agents_current_copy]. split.
    + unfold wf. cbn [agents neigh wts with_agents]. rewrite map_length, seq_length. auto.
    + unfold n_agents. cbn. now rewrite map_length, seq_length.
  - split; [unfold n_agents; cbn [agents with_agents]; now rewrite map_length, seq_length|].
    repeat (split; [reflexivity|]). split.
    + intros i Hi. unfold opinions. cbn [agents with_agents]. rewrite map_map, nth_error_map_seq.
      unfold n_agents in *. destruct (Nat.ltb_spec i (length (agents g))); [reflexivity|lia].
    + destruct cs as [|c [|c' cs]]; cbn [length Nat.eqb].
      * split; [discriminate|]. intros (c & H). discriminate.
      * split; eauto.
      * split; [discriminate|]. intros (x & H). discriminate.
Qed.

Local Open Scope R_scope.
Definition net3 : network (simple_agent R) R :=
  mkNet [mkSimple 0; mkSimple 1; mkSimple 5] [[0; 1]; [1; 2]; [2; 0]]%nat
        [[1/2; 1/2]; [1/4; 3/4]; [1/2; 1/2]] Incoming.
Definition dg3 : degroot RA := mkDeGroot (a:=RA) (base_ctor None) (1/100) None net3 (agents net3).
Lemma dg3_ready : ready dg3.
Proof.
  split; [|reflexivity]. repeat split; auto.
  - intros [|[|[|i]]] H; cbn in *; auto; lia.
  - intros [|[|[|[|i]]]] j H; cbn in *; intuition lia.
Qed.
Example C25_instance : exists m', degroot_iteration dg3 = Ok m' /\ ready dg3 /\
  map s_opinion (agents (dg_net m')) = [1/2; 4; 5/2].
Proof.
  destruct (C25_synchronous_step RA dg3 dg3_ready) as (m' & E & HR & _). exists m'. split; auto. split; [apply dg3_ready|].
  rewrite (iteration_ok RA dg3 dg3_ready) in E. injection E as <-. 
  change ([@weighted_sum RA [0;1;5] [(0%nat,1/2);(1%nat,1/2)]; @weighted_sum RA [0;1;5] [(1%nat,1/4);(2%nat,3/4)];
    @weighted_sum RA [0;1;5] [(2%nat,1/2);(0%nat,1/2)]] = [1/2;4;5/2]).
  unfold weighted_sum; cbn. repeat (f_equal; try lra).
Qed.
Print Assumptions C25_synchronous_step.

(** ** Runs, over the reals *)
Lemma weighted_sum_R (xs : list R) (r : list (nat * R)) :
  @weighted_sum RA xs r = Rsum (map (fun p => snd p * nth (fst p) xs 0) r).
Proof.
  unfold weighted_sum. cbn [fadd fmul f0 RA F].
  assert (G : forall (l : list (nat * R)) acc, fold_left (fun acc p => acc + snd p * nth (fst p) xs 0) l acc =
    acc + Rsum (map (fun p => snd p * nth (fst p) xs 0) l)).
  { induction l as [|p l IH]; intros acc; cbn [fold_left map]; rewrite ?Rsum_nil, ?Rsum_cons; [lra|]. rewrite IH. lra. }
  rewrite (G r 0). lra.
Qed.

Fixpoint iterate (g : network (simple_agent R) R) (k : nat) : list R :=
  match k with
  | 0%nat => @opinions RA g
  | S k' => map (fun i => @weighted_sum RA (iterate g k') (row g i)) (seq 0 (n_agents g))
  end.

Lemma iterate_shift g xs : map s_opinion xs = iterate g 1 -> length xs = n_agents g ->
  forall k, iterate (with_agents g xs) k = iterate g (S k).
Proof.
  intros Hx HL k. induction k as [|k IH]; [exact Hx|]. cbn [iterate] in *. rewrite IH. unfold n_agents. cbn [agents with_agents].
  rewrite HL. reflexivity.
Qed.

Lemma run_ok k : forall (m : degroot RA), ready m ->
  exists m', degroot_run k m = Ok m' /\ ready m' /\ @opinions RA (dg_net m') = iterate (dg_net m) k /\
    neigh (dg_net m') = neigh (dg_net m) /\ wts (dg_net m') = wts (dg_net m) /\
    n_agents (dg_net m') = n_agents (dg_net m) /\
    convergence_tol m' = convergence_tol m /\ max_iterations (dg_base m') = max_iterations (dg_base m) /\
    max_opinion_diff m' = match k with 0%nat => max_opinion_diff m | S k' =>
       Some (fold_left (fmax RA) (map (fun p => Rabs (fst p - snd p)) (combine (iterate (dg_net m) k') (iterate (dg_net m) k))) 0) end.
Proof.
  induction k as [|k IH]; intros m HR.
  - exists m. cbn. auto 10.
  - cbn [degroot_run]. rewrite (iteration_ok RA m HR). cbn [bind].
    match goal with |- exists m', degroot_run k ?x = _ /\ _ => set (m1 := x) end.
    assert (HR1 : ready m1) by (eapply ready_next; [exact HR|apply (iteration_ok RA m HR)]).
    destruct (IH m1 HR1) as (m' & E & A1 & A2 & A3 & A4 & A5 & A6 & A7 & A8).
    assert (L1 : length (map (mkSimple (D:=R)) (@averaged RA (dg_net m))) = n_agents (dg_net m))
      by (rewrite map_length; apply (averaged_length RA)).
    assert (Sh : forall j, iterate (dg_net m1) j = iterate (dg_net m) (S j)).
    { intros j. unfold m1. cbn [dg_net]. apply (iterate_shift (dg_net m)); [|exact L1].
      rewrite map_map. cbn [s_opinion]. rewrite map_id. reflexivity. }
    exists m'. split; auto. split; auto. split; [now rewrite A2, Sh|].
    repeat split; auto.
    + rewrite A5. unfold m1, n_agents. cbn [dg_net agents with_agents]. exact L1.
    + rewrite A8. destruct k as [|k]; [|now rewrite !Sh].
      unfold m1. cbn [max_opinion_diff]. f_equal. 
Qed.

Lemma rows_of (g : network (simple_agent R) R) i : wf g -> (i < n_agents g)%nat ->
  map snd (row g i) = nth i (wts g) [] /\ map fst (row g i) = nth i (neigh g) [].
Proof.
  intros (W1 & W2 & W3 & W4) Hi. specialize (W3 i Hi). unfold row. revert W3.
  generalize (nth i (wts g) []) as ws. generalize (nth i (neigh g) []) as ns.
  induction ns as [|j ns IH]; intros [|w ws] H; cbn in *; try discriminate; auto.
  destruct (IH ws) as [E1 E2]; [lia|]. now rewrite E1, E2.
Qed.

Section Run.
Variable g : network (simple_agent R) R.
Hypothesis Hwf : wf g.
Hypothesis Hst : stochastic g.
Variable n0 : nat.
Hypothesis Hn : n_agents g = S n0.
Let X (k i : nat) : R := nth i (iterate g k) 0.

Lemma X_step k i : (i <= n0)%nat -> X (S k) i = Rsum (map (fun p => snd p * X k (fst p)) (row g i)).
Proof.
  intros Hi. unfold X. cbn [iterate]. rewrite nth_map_seq by lia. rewrite weighted_sum_R. reflexivity.
Qed.
Lemma X_in i p : (i <= n0)%nat -> In p (row g i) -> (fst p <= n0)%nat.
Proof.
  intros Hi Hp. destruct (rows_of g i Hwf ltac:(lia)) as [_ E]. destruct Hwf as (_ & _ & _ & W4).
  assert (In (fst p) (nth i (neigh g) [])) as H by (rewrite <- E; now apply in_map).
  apply W4 in H. unfold n_agents in Hn. lia.
Qed.
Lemma X_nn i : (i <= n0)%nat -> Forall (fun p => 0 <= snd p) (row g i).
Proof.
  intros Hi. destruct (rows_of g i Hwf ltac:(lia)) as [E _]. destruct (Hst i ltac:(lia)) as [F _].
  rewrite <- E in F. rewrite Forall_forall in *. intros p Hp. apply F. now apply in_map.
Qed.
Lemma X_sum i : (i <= n0)%nat -> Rsum (map snd (row g i)) = 1.
Proof. intros Hi. destruct (rows_of g i Hwf ltac:(lia)) as [E _]. rewrite E. apply Hst; lia. Qed.
End Run.

Lemma iterate_length g k : length (iterate g k) = n_agents g.
Proof. destruct k; cbn [iterate]; unfold opinions; now rewrite ?map_length, ?seq_length. Qed.

(** C26. Convex averaging never leaves an interval containing the opinions, for any number of steps. *)
Theorem C26_range_kept (m : degroot RA) lo hi k : ready m -> stochastic (dg_net m) ->
  Forall (fun x => lo <= x <= hi) (@opinions RA (dg_net m)) ->
  exists m', degroot_run k m = Ok m' /\ Forall (fun x => lo <= x <= hi) (@opinions RA (dg_net m')).
Proof.
  intros HR Hst HF. destruct (run_ok k m HR) as (m' & E & _ & HO & _). exists m'. split; auto. rewrite HO.
  destruct (n_agents (dg_net m)) as [|n0] eqn:En.
  - assert (L : length (iterate (dg_net m) k) = 0%nat) by (rewrite iterate_length; exact En). destruct (iterate (dg_net m) k); [constructor|discriminate].
  - set (X := fun k i => nth i (iterate (dg_net m) k) 0).
    destruct HR as (Hwf & _).
    pose proof (X_step (dg_net m) n0 En) as S1. pose proof (X_in (dg_net m) Hwf n0 En) as S2.
    pose proof (X_nn (dg_net m) Hwf Hst n0 En) as S3. pose proof (X_sum (dg_net m) Hwf Hst n0 En) as S4.
    assert (H0 : forall i, (i <= n0)%nat -> lo <= X 0%nat i <= hi).
    { intros i Hi. rewrite Forall_forall in HF. apply HF. unfold X. cbn [iterate]. apply nth_In.
      unfold opinions. rewrite map_length. unfold n_agents in En. rewrite En. lia. }
    apply Forall_forall. intros x Hx. apply In_nth with (d := 0) in Hx as (i & Hi & <-). rewrite iterate_length in Hi; setoid_rewrite En in Hi.
    split.
    + apply (lower_steps n0 (row (dg_net m)) X S1 S2 S3 S4 k 0 lo); [|lia]. intros j Hj. now apply H0.
    + apply (upper_steps n0 (row (dg_net m)) X S1 S2 S3 S4 k 0 hi); [|lia]. intros j Hj. now apply H0.
Qed.

(** A consensus is a fixed point. *)
Theorem C26_consensus_fixed (m : degroot RA) c k : ready m -> stochastic (dg_net m) ->
  Forall (fun x => x = c) (@opinions RA (dg_net m)) ->
  exists m', degroot_run k m = Ok m' /\ @opinions RA (dg_net m') = @opinions RA (dg_net m).
Proof.
  intros HR Hst HF. destruct (C26_range_kept m c c k HR Hst) as (m' & E & HF').
  { eapply Forall_impl; [|exact HF]. cbn. intros x ->. lra. }
  exists m'. split; auto. destruct (run_ok k m HR) as (m'' & E' & _ & HO & _). rewrite E in E'. inversion E'; subst m''.
  assert (L : length (@opinions RA (dg_net m')) = length (@opinions RA (dg_net m))).
  { rewrite HO, iterate_length. unfold opinions. now rewrite map_length. }
  clear -HF HF' L. revert HF' L. generalize (@opinions RA (dg_net m')) as l'. induction HF as [|x l Hx HF IH]; intros [|y l'] HF' L; try discriminate; auto.
  inversion HF'; subst. f_equal; [lra|]. apply IH; auto.
Qed.

Lemma net3_stochastic : stochastic net3.
Proof.
  intros [|[|[|i]]] H; cbn in *; try lia; split; repeat constructor; try lra; unfold Rsum; cbn; lra.
Qed.
Example C26_instance : ready dg3 /\ stochastic (dg_net dg3) /\
  Forall (fun x => 0 <= x <= 5) (@opinions RA (dg_net dg3)).
Proof. split; [apply dg3_ready|]. split; [apply net3_stochastic|]. repeat constructor; cbn; lra. Qed.
Print Assumptions C26_range_kept.

(** C27. Convergence to one common opinion. *)
Lemma setup_consensus (g : network (simple_agent R) R) n0 : wf g -> n_agents g = S n0 ->
  positive_weights g ->
  (forall i j, (i < n_agents g)%nat -> (j < n_agents g)%nat -> reach (neigh g) i j) ->
  exists wmin K, 0 < wmin <= 1 /\
    (forall i p, (i <= n0)%nat -> In p (row g i) -> wmin <= snd p) /\
    (forall i j, (i <= n0)%nat -> (j <= n0)%nat -> within (row g) K j i).
Proof.
  intros Hwf Hn Hpos Hreach.
  assert (R1 : forall i, (i <= n0)%nat -> map snd (row g i) = nth i (wts g) [] /\ map fst (row g i) = nth i (neigh g) []).
  { intros i Hi. apply rows_of; auto. lia. }
  destruct (common_lower (concat (map (fun i => map snd (row g i)) (seq 0 (S n0))))) as (wmin & Hw & HF).
  { apply Forall_concat, Forall_map, Forall_forall. intros i Hi. apply in_seq in Hi.
    rewrite (proj1 (R1 i ltac:(lia))). apply Hpos. lia. }
  destruct (common_bound (nat * nat) (fun k p => within (row g) k (snd p) (fst p))) with
    (l := list_prod (seq 0 (S n0)) (seq 0 (S n0))) as (K & HK).
  { intros k k' [i j] Hk. now apply within_mono. }
  { intros [i j] Hij. apply in_prod_iff in Hij as [Hi Hj]. apply in_seq in Hi. apply in_seq in Hj. cbn [fst snd].
    assert (Hr : reach (neigh g) i j) by (apply Hreach; lia).
    assert (Hi' : (i <= n0)%nat) by lia. clear Hi Hj. revert Hi'. induction Hr as [u|u v w Huv Hr IH]; intros Hu.
    - exists 0%nat. reflexivity.
    - unfold edge in Huv. rewrite <- (proj2 (R1 u Hu)) in Huv.
      destruct IH as (k & Hk). { apply in_map_iff in Huv as (p & <- & Hp). eapply X_in; eauto. }
      exists (S k). cbn. right. eauto. }
  exists wmin, K. split; auto. split.
  - intros i p Hi Hp. rewrite Forall_forall in HF. apply HF. apply in_concat. exists (map snd (row g i)). split.
    + apply in_map_iff. exists i. split; auto. apply in_seq. lia.
    + now apply in_map.
  - intros i j Hi Hj. apply (HK (i, j)). apply in_prod_iff. split; apply in_seq; lia.
Qed.

Theorem C27_converges_to_consensus (m : degroot RA) :
  ready m -> (0 < n_agents (dg_net m))%nat ->
  positive_weights (dg_net m) -> stochastic (dg_net m) -> self_listening (dg_net m) ->
  (forall i j, (i < n_agents (dg_net m))%nat -> (j < n_agents (dg_net m))%nat -> reach (neigh (dg_net m)) i j) ->
  exists c, forall eps, 0 < eps -> exists T, forall k, (T <= k)%nat ->
    exists m', degroot_run k m = Ok m' /\ Forall (fun x => Rabs (x - c) < eps) (@opinions RA (dg_net m')).
Proof.
  intros HR H0 Hpos Hst Hself Hreach. set (g := dg_net m) in *. pose proof HR as (Hwf & _).
  destruct (n_agents g) as [|n0] eqn:En; [lia|].
  destruct (setup_consensus g n0 Hwf En Hpos) as (wmin & K & Hw & HW & HK).
  { intros i j Hi Hj. apply Hreach; (eapply Nat.lt_le_trans; [eassumption|]; apply Nat.eq_le_incl; exact En). }
  destruct (consensus n0 (row g) (fun k i => nth i (iterate g k) 0) (X_step g n0 En) (X_in g Hwf n0 En)
     (X_nn g Hwf Hst n0 En) (X_sum g Hwf Hst n0 En)) with (wmin := wmin) (K := K) as (c & _ & Hc); auto.
  { intros i Hi. assert (Hi' : (i < n_agents g)%nat) by (eapply Nat.lt_le_trans; [apply Nat.lt_succ_r; exact Hi|]; apply Nat.eq_le_incl; symmetry; exact En).
    destruct (rows_of g i Hwf Hi') as [_ Er]. eapply eq_ind_r with (P := fun l => In i l); [|exact Er]. apply Hself. exact Hi'. }
  exists c. intros eps He. destruct (Hc eps He) as (T & HT). exists T. intros k Hk.
  destruct (run_ok k m HR) as (m' & E & _ & HO & _). exists m'. split; auto. rewrite HO. fold g.
  apply Forall_forall. intros x Hx. apply In_nth with (d := 0) in Hx as (i & Hi & <-). rewrite iterate_length in Hi; setoid_rewrite En in Hi.
  apply HT; auto. lia.
Qed.

(** ... so every positive tolerance is eventually met: the run stops even without a limit. *)
Theorem C27_run_stops (m : degroot RA) :
  ready m -> (0 < n_agents (dg_net m))%nat ->
  positive_weights (dg_net m) -> stochastic (dg_net m) -> self_listening (dg_net m) ->
  (forall i j, (i < n_agents (dg_net m))%nat -> (j < n_agents (dg_net m))%nat -> reach (neigh (dg_net m)) i j) ->
  0 < convergence_tol m ->
  exists T, forall k, (T <= k)%nat -> exists m', degroot_run k m = Ok m' /\ degroot_finished m' = true.
Proof.
  intros HR H0 Hpos Hst Hself Hreach Htol.
  destruct (C27_converges_to_consensus m HR H0 Hpos Hst Hself Hreach) as (c & Hc).
  assert (Ht : 0 < convergence_tol m / 2) by lra.
  destruct (Hc _ Ht) as (T & HT). exists (S T). intros k Hk. destruct k as [|k]; [lia|].
  destruct (run_ok (S k) m HR) as (m' & E & _ & HO & _ & _ & _ & HTol & _ & HD).
  exists m'. split; auto. unfold degroot_finished. apply orb_true_intro. right. rewrite HD, HTol.
  change (flt RA) with Rltb. 
  match goal with |- Rltb ?d _ = true => destruct (Rltb_spec d (convergence_tol m)) as [Hlt|Hge]; auto; exfalso; apply Hge end.
  assert (P : forall k, (T <= k)%nat -> Forall (fun x => Rabs (x - c) < convergence_tol m / 2) (iterate (dg_net m) k)).
  { intros j Hj. destruct (HT j Hj) as (mj & Ej & Fj). destruct (run_ok j m HR) as (mj' & Ej' & _ & HOj & _).
    rewrite Ej in Ej'. inversion Ej'; subst mj'. rewrite HOj in Fj. exact Fj. }
  pose proof (P k ltac:(lia)) as P1. pose proof (P (S k) ltac:(lia)) as P2.
  assert (G : forall l1 l2 acc, Forall (fun x => Rabs (x - c) < convergence_tol m / 2) l1 ->
     Forall (fun x => Rabs (x - c) < convergence_tol m / 2) l2 -> acc < convergence_tol m ->
     fold_left (fmax RA) (map (fun p => Rabs (fst p - snd p)) (combine l1 l2)) acc < convergence_tol m).
  { induction l1 as [|x l1 IH]; intros [|y l2] acc F1 F2 Ha; cbn [combine map fold_left]; auto.
    inversion F1; inversion F2; subst. apply IH; auto. unfold fmax. cbn [flt RA fst snd].
    destruct (Rltb acc (Rabs (x - y))); auto.
    replace (x - y) with ((x - c) + - (y - c)) by lra. eapply Rle_lt_trans; [apply Rabs_triang|]. rewrite Rabs_Ropp. lra. }
  apply G; auto.
Qed.

(** The same from the constructor on: if it prints no warning, the network is strongly connected. *)
Theorem C27_no_warning_then_stops (g : network (simple_agent R) R) max (tol : R) m :
  wf g -> (0 < n_agents g)%nat -> positive_weights g -> stochastic g -> self_listening g -> 0 < tol ->
  degroot_ctor (a:=RA) max tol g = Ok (m, None) ->
  exists T, forall k, (T <= k)%nat -> exists m', degroot_run k m = Ok m' /\ degroot_finished m' = true.
Proof.
  intros Hwf H0 Hp Hs Hse Ht E.
  destruct (C25_constructor RA max tol g Hwf) as (m1 & w & E1 & HR & N1 & N2 & N3 & N4 & _ & _ & N5 & _ & _ & N6).
  rewrite E in E1. inversion E1; subst m1 w. clear E1. destruct N6 as [N6 _]. destruct (N6 eq_refl) as (c & Ec).
  assert (T : forall g' : network (simple_agent R) R, neigh g' = neigh g -> wts g' = wts g -> n_agents g' = n_agents g ->
     (0 < n_agents g')%nat /\ positive_weights g' /\ stochastic g' /\ self_listening g' /\
     forall i j, (i < n_agents g')%nat -> (j < n_agents g')%nat -> reach (neigh g') i j).
  { intros g' M1 M2 M3. split; [lia|]. unfold positive_weights, stochastic, self_listening. rewrite M1, M2, M3.
    do 3 (split; auto). intros i j Hi Hj. destruct Hwf as (W1 & _ & _ & W4). unfold n_agents in Hi, Hj.
    eapply (C11_one_component_strongly_connected g [c]); eauto; try lia.
    intros u w Hu. rewrite W1. eapply W4. exact Hu. }
  destruct (T (dg_net m) N1 N2 N4) as (T1 & T2 & T3 & T4 & T5).
  apply C27_run_stops; auto. rewrite N5. exact Ht.
Qed.

Example C27_instance : ready dg3 /\ (0 < n_agents (dg_net dg3))%nat /\
  positive_weights (dg_net dg3) /\ stochastic (dg_net dg3) /\ self_listening (dg_net dg3) /\
  (forall i j, (i < n_agents (dg_net dg3))%nat -> (j < n_agents (dg_net dg3))%nat -> reach (neigh (dg_net dg3)) i j) /\
  0 < convergence_tol dg3.
Proof.
  split; [apply dg3_ready|]. split; [cbn; lia|]. split; [|split; [apply net3_stochastic|split; [|split]]].
  - intros [|[|[|i]]] H; cbn in *; try lia; repeat constructor; lra.
  - intros [|[|[|i]]] H; cbn in *; try lia; auto.
  - assert (E01 : edge (neigh net3) 0 1) by (cbn; auto). assert (E12 : edge (neigh net3) 1 2) by (cbn; auto).
    assert (E20 : edge (neigh net3) 2 0) by (cbn; auto).
    intros i j Hi Hj. cbn in Hi, Hj. change (neigh (dg_net dg3)) with (neigh net3).
    destruct i as [|[|[|i]]]; [| | |lia]; destruct j as [|[|[|j]]]; try lia;
      eauto 6 using reach_refl, reach_step.
  - cbn. lra.
Qed.

(** Strong connectivity alone is not enough: two agents that only listen to each other swap their
    opinions forever. *)
Definition swap_net : network (simple_agent R) R :=
  mkNet [mkSimple 0; mkSimple 0] [[1]; [0]]%nat [[1]; [1]] Incoming.
Theorem C27_without_self_interaction_refuted :
  wf swap_net /\ positive_weights swap_net /\ stochastic swap_net /\
  exists m, degroot_ctor (a:=RA) None (1/4) swap_net = Ok (m, None) /\
    forall k, exists m', degroot_run k m = Ok m' /\ degroot_finished m' = false /\
      @opinions RA (dg_net m') = if Nat.even k then [0/2; 1/2] else [1/2; 0/2].
Proof.
  assert (Hw : wf swap_net).
  { repeat split; auto.
    - intros [|[|i]] H; cbn in *; auto; lia.
    - intros [|[|[|i]]] j H; cbn in *; intuition lia. }
  split; auto. split; [|split].
  - intros [|[|i]] H; cbn in *; try lia; repeat constructor; lra.
  - intros [|[|i]] H; cbn in *; try lia; split; repeat constructor; try lra; unfold Rsum; cbn; lra.
  - eexists. split; [reflexivity|]. intros k.
    match goal with |- exists m', degroot_run k ?x = _ /\ _ => set (m := x) end.
    assert (HR : ready m).
    { split; [|reflexivity]. repeat split; auto.
      - intros [|[|i]] H; cbn in *; auto; lia.
      - intros [|[|[|i]]] j H; cbn in *; intuition lia. }
    assert (EV : forall j, iterate (dg_net m) j = if Nat.even j then [0/2; 1/2] else [1/2; 0/2]).
    { induction j as [|j IH]; [reflexivity|]. cbn [iterate]. rewrite IH, Nat.even_succ, <- Nat.negb_even.
      destruct (Nat.even j); cbn; unfold weighted_sum; cbn; repeat (f_equal; try lra). }
    destruct (run_ok k m HR) as (m' & E & _ & HO & _ & _ & _ & HT & HM & HD). exists m'. split; auto.
    split; [|rewrite HO; apply EV].
    unfold degroot_finished, base_finished. rewrite HM. cbn [max_iterations m dg_base base_ctor orb].
    rewrite HD. destruct k as [|k]; [reflexivity|]. rewrite HT. rewrite !EV, Nat.even_succ, <- Nat.negb_even.
    assert (Hh : forall x y, (x = 0/2 /\ y = 1/2) \/ (x = 1/2 /\ y = 0/2) -> Rabs (x - y) = 1/2).
    { intros x y [[-> ->]|[-> ->]]; [rewrite Rabs_left1; lra|rewrite Rabs_pos_eq; lra]. }
    assert (FV : forall u v, Rabs u = 1/2 -> Rabs v = 1/2 -> flt RA (fold_left (fmax RA) [Rabs u; Rabs v] 0) (1/4) = false).
    { intros u v Eu Ev. rewrite Eu, Ev. unfold fmax. cbn [fold_left flt RA].
      destruct (Rltb_spec 0 (1/2)); [|lra]. destruct (Rltb_spec (1/2) (1/2)); [lra|]. destruct (Rltb_spec (1/2) (1/4)); [lra|reflexivity]. }
    destruct (Nat.even k); cbn [negb combine map fst snd]; apply FV; apply Hh; auto.
Qed.
Print Assumptions C27_run_stops.

(** C28. When the run stops. *)
Theorem C28_finished_after_iteration (m m' : degroot RA) : ready m -> (0 < n_agents (dg_net m))%nat ->
  degroot_iteration m = Ok m' ->
  (degroot_finished m' = true <->
   (exists limit, max_iterations (dg_base m) = Some limit /\ (limit <= iterations (dg_base m'))%Z) \/
   (forall i x x', nth_error (@opinions RA (dg_net m)) i = Some x -> nth_error (@opinions RA (dg_net m')) i = Some x' ->
      Rabs (x - x') < convergence_tol m)).
Proof.
  intros HR H0 E. rewrite (iteration_ok RA m HR) in E. inversion E; subst m'. clear E.
  unfold degroot_finished, base_finished. cbn [dg_base max_opinion_diff convergence_tol dg_net max_iterations base_iteration].
  rewrite opinions_with_agents. rewrite orb_true_iff.
  assert (L1 : (match max_iterations (dg_base m) with Some l => (l <=? iterations (base_iteration (dg_base m)))%Z | None => false end = true)
     <-> (exists limit, max_iterations (dg_base m) = Some limit /\ (limit <= iterations (base_iteration (dg_base m)))%Z)).
  { destruct (max_iterations (dg_base m)) as [l|].
    - rewrite Z.leb_le. split; [eauto|]. intros (l' & El & H). inversion El; subst; auto.
    - split; [discriminate|]. intros (l & H & _). discriminate. }
  change (iterations (mkBase (max_iterations (dg_base m)) (to_size_t (iterations (dg_base m) + 1)))) with (iterations (base_iteration (dg_base m))) in *.
  rewrite L1. clear L1. apply or_iff_compat_l.
  change (flt RA) with Rltb. change (fabs RA) with Rabs. change (fsub RA) with Rminus. change (f0 RA) with 0.
  assert (G : forall (tol : R) (l1 l2 : list R) (acc : R), length l1 = length l2 ->
     (fold_left (fmax RA) (map (fun p : R * R => Rabs (fst p - snd p)) (combine l1 l2)) acc < tol <->
      acc < tol /\ forall i x x', nth_error l1 i = Some x -> nth_error l2 i = Some x' -> Rabs (x - x') < tol)).
  { intros tol. induction l1 as [|x l1 IH]; intros [|y l2] acc HL; try discriminate; cbn [combine map fold_left].
    - split; [|tauto]. intros H. split; auto. intros [|i] ? ? ?; discriminate.
    - rewrite IH by (cbn in HL; lia). cbn [fst snd]. unfold fmax. cbn [flt RA].
      destruct (Rltb_spec acc (Rabs (x - y))) as [Hlt|Hge].
      + split.
        * intros [H1 H2]. split; [lra|]. intros [|i] u v Hu Hv; cbn in *; [congruence|eauto].
        * intros [H1 H2]. split; [apply (H2 0%nat); reflexivity|]. intros i u v Hu Hv. apply (H2 (S i)); auto.
      + split.
        * intros [H1 H2]. split; [lra|]. intros [|i] u v Hu Hv; cbn in *; [inversion Hu; inversion Hv; subst; lra|eauto].
        * intros [H1 H2]. split; [lra|]. intros i u v Hu Hv. apply (H2 (S i)); auto. }
  assert (L : length (@opinions RA (dg_net m)) = length (@averaged RA (dg_net m))).
  { rewrite averaged_length. unfold opinions. now rewrite map_length. }
  specialize (G (convergence_tol m) _ _ 0 L).
  match goal with |- Rltb ?d ?t = true <-> _ => destruct (Rltb_spec d t) as [Hlt|Hge] end.
  - split; auto. intros _. apply G. exact Hlt.
  - split; [discriminate|]. intros H. exfalso. apply Hge. apply G. split; auto.
    destruct (@opinions RA (dg_net m)) as [|x xs] eqn:Ex.
    { unfold opinions in Ex. apply map_eq_nil in Ex. unfold n_agents in H0. rewrite Ex in H0. cbn in H0. lia. }
    destruct (@averaged RA (dg_net m)) as [|y ys] eqn:Ey; [discriminate|].
    specialize (H 0%nat x y eq_refl eq_refl). pose proof (Rabs_pos (x - y)). lra.
Qed.

(** Before the first iteration only the limit counts: [max] is the std::optional<int> of the
    settings. A negative limit is no reason to stop (it becomes a huge size_t). *)
Theorem C28_before_first_iteration (a : Arith) max tol (g : network (simple_agent (F a)) (F a)) m w :
  (forall limit, max = Some limit -> (-2147483648 <= limit <= 2147483647)%Z) ->
  wf g -> degroot_ctor max tol g = Ok (m, w) ->
  degroot_finished m = true <-> max = Some 0%Z.
Proof.
  intros HI Hw E. destruct (C25_constructor a max tol g Hw) as (m1 & w1 & E1 & _ & _ & _ & _ & _ & H1 & H2 & _ & H3 & _).
  rewrite E in E1. inversion E1; subst m1 w1. unfold degroot_finished, base_finished. rewrite H1, H2, H3, orb_false_r.
  destruct max as [l|]; cbn [option_map].
  - rewrite Z.leb_le. specialize (HI l eq_refl). pose proof (Z.mod_pos_bound l (2 ^ 64) ltac:(lia)).
    split; [|intros [= ->]; cbn; lia]. intros H0. f_equal.
    assert (E0 : (l mod 2 ^ 64 = 0)%Z) by lia. apply Z.mod_divide in E0; [|lia]. destruct E0 as (k & Ek). lia.
  - split; discriminate.
Qed.

(** With convergence_tol = 0 and no limit the run never stops, in all three arithmetics. *)
Definition lt_zero_law (a : Arith) : Prop :=
  forall x y, flt a x y = true -> flt a x (f0 a) = false -> flt a y (f0 a) = false.
Lemma lt_zero_RA : lt_zero_law RA.
Proof. intros x y. cbn. destruct (Rltb_spec x y), (Rltb_spec x 0), (Rltb_spec y 0); try discriminate; auto. lra. Qed.
Lemma lt_zero_EA : lt_zero_law EA.
Proof.
  intros [x| | |] [y| | |]; cbn; try discriminate; auto.
  destruct (Rltb_spec x y), (Rltb_spec x 0), (Rltb_spec y 0); try discriminate; auto. lra.
Qed.
Lemma lt_zero_FA : lt_zero_law FA.
Proof.
  intros x y. cbn. unfold BinarySingleNaN.Bltb, SpecFloat.SFltb.
  destruct x as [sx|sx| |sx mx ex ?], y as [sy|sy| |sy my ey ?]; try destruct sx; try destruct sy; cbn; congruence.
Qed.

Lemma fold_fmax_nonneg (a : Arith) : lt_zero_law a -> forall l acc, flt a acc (f0 a) = false ->
  flt a (fold_left (fmax a) l acc) (f0 a) = false.
Proof.
  intros HL. induction l as [|x l IH]; intros acc H; cbn [fold_left]; auto. apply IH. unfold fmax.
  destruct (flt a acc x) eqn:E; auto. eapply HL; eauto.
Qed.

Lemma zero_tol_run (a : Arith) : lt_zero_law a -> flt a (f0 a) (f0 a) = false -> forall k (m : degroot a), ready m ->
  max_iterations (dg_base m) = None -> convergence_tol m = f0 a -> degroot_finished m = false ->
  exists m', degroot_run k m = Ok m' /\ degroot_finished m' = false.
Proof.
  intros HL H00. induction k as [|k IH]; intros m HR HM HT HF; [exists m; auto|].
  cbn [degroot_run]. pose proof (iteration_ok a m HR) as E. rewrite E. cbn [bind]. apply IH; auto.
  - eapply ready_next; eauto.
  - unfold degroot_finished, base_finished. cbn [dg_base base_iteration max_iterations max_opinion_diff convergence_tol].
    rewrite HM, HT. cbn [orb]. apply fold_fmax_nonneg; auto.
Qed.

Theorem C28_zero_tolerance_never_stops (a : Arith) (g : network (simple_agent (F a)) (F a)) m w :
  a = RA \/ a = EA \/ a = FA ->
  wf g -> degroot_ctor None (f0 a) g = Ok (m, w) ->
  forall k, exists m', degroot_run k m = Ok m' /\ degroot_finished m' = false.
Proof.
  intros Ha Hw E k.
  assert (L : lt_zero_law a /\ flt a (f0 a) (f0 a) = false).
  { destruct Ha as [->|[->| ->]].
    - split; [apply lt_zero_RA|]. cbn. destruct (Rltb_spec 0 0); auto; lra.
    - split; [apply lt_zero_EA|]. cbn. destruct (Rltb_spec 0 0); auto; lra.
    - split; [apply lt_zero_FA|reflexivity]. }
  destruct L as [L1 L2].
  destruct (C25_constructor a None (f0 a) g Hw) as (m1 & w1 & E1 & HR & _ & _ & _ & _ & H1 & H2 & HT & H3 & _).
  rewrite E in E1. injection E1 as <- <-. apply zero_tol_run; auto.
  cbn [option_map] in H2. unfold degroot_finished, base_finished. now rewrite H2, H3.
Qed.

(** A NaN is invisible to the convergence test: std::max(0, NaN) is 0. So with IEEE arithmetic the
    model reports convergence although an opinion just changed from 0 to NaN. *)
Definition nan_net : network (simple_agent float) float :=
  mkNet [mkSimple (f0 FA)] [[0%nat]] [[BinarySingleNaN.B754_nan]] Incoming.
Theorem C28_nan_reported_as_converged_refuted :
  wf nan_net /\
  exists m m', degroot_ctor (a:=FA) None (f1 FA) nan_net = Ok (m, None) /\ degroot_iteration m = Ok m' /\
    degroot_finished m' = true /\ @opinions FA (dg_net m') = [BinarySingleNaN.B754_nan].
Proof.
  assert (Hw : wf nan_net).
  { repeat split; auto.
    - intros [|i] H; cbn in *; auto; lia.
    - intros [|[|i]] j H; cbn in *; intuition lia. }
  split; auto. do 2 eexists. split; [reflexivity|]. split; [reflexivity|]. split; reflexivity.
Qed.

Example C28_instance : wf net3 /\ ready dg3 /\ exists m, degroot_iteration dg3 = Ok m.
Proof. split; [apply dg3_ready|]. split; [apply dg3_ready|]. destruct (C25_synchronous_step RA dg3 dg3_ready) as (m & E & _). eauto. Qed.
Print Assumptions C28_finished_after_iteration.
Print Assumptions C28_before_first_iteration.
Print Assumptions C28_zero_tolerance_never_stops.
Print Assumptions C28_nan_reported_as_converged_refuted.
