(** The laws of draw_unique_k_from_n and of the pair selection. *)
From Verif Require Import Base BaseFacts Arith64 MRandom SRandom PRandom RFacts TRandom SProb SProb2 PProb10 SLaw PLaw
  MNetwork SNetwork PNetwork2 MAgents MDeGroot SDeGroot MDeffuant SDeffuant PDeffuant TDeffuant.
From Coq Require Import Reals Lra Lia Sorting.Sorted.
Local Open Scope R_scope.

Lemma sublists_map {A B} (h : A -> B) k l : sublists k (map h l) = map (map h) (sublists k l).
Proof.
  revert k. induction l as [|x l IH]; intros [|k]; cbn [map sublists]; auto.
  rewrite map_app, !IH, !map_map. f_equal.
Qed.
Lemma sublists_0 {A} (l : list A) : sublists 0 l = [] :: nil.
Proof. now destruct l. Qed.
Lemma sublists_1 {A} (l : list A) : sublists 1 l = map (fun x => [x]) l.
Proof. induction l as [|x l IH]; cbn [sublists map]; auto. now rewrite sublists_0, IH. Qed.
Lemma total_ext {A} (f h : A -> R) l : (forall x, In x l -> f x = h x) -> total f l = total h l.
Proof.
  unfold total. induction l as [|x l IH]; intros H; cbn [fold_right]; auto. rewrite IH by (intros; apply H; now right).
  rewrite (H x) by now left. reflexivity.
Qed.
Lemma total_Rsum {A} (f : A -> R) l : total f l = Rsum (map f l).
Proof. unfold total, Rsum. induction l as [|x l IH]; cbn [map fold_right]; auto. now rewrite IH. Qed.
Lemma total_lin {A} (f h : A -> R) c d l : total (fun x => c * f x + d * h x) l = c * total f l + d * total h l.
Proof. unfold total. induction l as [|x l IH]; cbn [fold_right]; [lra|]. rewrite IH. lra. Qed.
Lemma total_const {A} c (l : list A) : total (fun _ => c) l = INR (length l) * c.
Proof. unfold total. induction l as [|x l IH]; cbn [fold_right length]; [cbn [INR]; lra|]. rewrite IH, S_INR. lra. Qed.
Lemma sublists_count {A} k (l : list A) : (k <= length l)%nat -> INR (length (sublists k l)) = Binomial.C (length l) k.
Proof.
  revert k. induction l as [|x l IH]; intros k Hk; cbn [length] in *.
  - assert (k = 0)%nat by lia. subst. cbn [sublists length INR]. now rewrite C_0.
  - destruct k as [|k]; [rewrite sublists_0; cbn [length INR]; now rewrite C_0|]. cbn [sublists]. rewrite app_length, map_length, plus_INR.
    rewrite IH by lia. destruct (Nat.eq_dec k (length l)) as [->|Hne].
    + rewrite sublists_long by lia. cbn [length INR]. unfold Binomial.C. rewrite !Nat.sub_diag. change (INR (fact 0)) with 1.
      field. split; apply INR_fact_neq_0.
    + rewrite IH by lia. rewrite Binomial.pascal by lia. reflexivity.
Qed.
Lemma nth_map_seq (l : list nat) : map (fun p => nth p l 0%nat) (seq 0 (length l)) = l.
Proof.
  induction l as [|x l IH]; cbn [length seq map]; auto. f_equal. rewrite <- seq_shift, map_map. exact IH.
Qed.

Section Draw.
Variables (ig : option nat) (k n : nat) (buffer : list nat).
Let eligible := filter (fun i => match ig with Some x => negb (i =? x)%nat | None => true end) (seq 0 n).
Hypothesis Hk : (k <= length eligible)%nat.
Lemma draw_law : law (length eligible) (draw_unique_k_from_n uni_rng ig k n buffer) (fun l => In l (sublists k eligible))
    (fun v => mean_of v (sublists k eligible)).
Proof using Hk.
  assert (HL : length eligible = population_size ig n) by exact (length_admissible ig n).
  apply law_ext with (fun us => bind (Ok (selection (length eligible) k 0 us)) (fun r => Ok (map (fun p => nth p eligible 0%nat) (fst r), snd r))).
  2:{ intros us. destruct (C12_is_the_sample RA uni_rng ig k n buffer us uni_sample_ok ltac:(lia)) as [_ E]. rewrite E.
      fold eligible. rewrite <- HL. cbn [uni_rng r_sample]. rewrite Nat.min_l by auto. reflexivity. }
  apply law_value with (fun v => total (fun l => v (map (fun p => nth p eligible 0%nat) l)) (sublists k (seq 0 (length eligible))) / Binomial.C (length eligible) k).
  - replace (length eligible) with (length eligible + 0)%nat at 1 by lia.
    apply (law_bind _ _ _ 0 (fun us => Ok (selection (length eligible) k 0 us)) (fun l us => Ok (map (fun p => nth p eligible 0%nat) l, us))
             (fun l => In l (sublists k (seq 0 (length eligible)))) (fun l => In l (sublists k eligible))
             (fun v => total v (sublists k (seq 0 (length eligible))) / Binomial.C (length eligible) k) (fun l v => v (map (fun p => nth p eligible 0%nat) l))).
    + now apply law_selection.
    + intros l Hl. apply law_ret; [|reflexivity]. replace (sublists k eligible) with (map (map (fun p => nth p eligible 0%nat)) (sublists k (seq 0 (length eligible)))) by (now rewrite <- sublists_map, nth_map_seq). now apply in_map.
  - intros v. unfold mean_of. rewrite sublists_count by auto. f_equal.
    replace (sublists k eligible) with (map (map (fun p => nth p eligible 0%nat)) (sublists k (seq 0 (length eligible)))) by (now rewrite <- sublists_map, nth_map_seq). now rewrite total_map.
Qed.
End Draw.

(** The pair without a network. *)
Lemma seq_all n : filter (fun _ : nat => true) (seq 0 n) = seq 0 n.
Proof. induction (seq 0 n); cbn; congruence. Qed.
Lemma pair_law {A} (net : network A R) : (2 <= n_agents net)%nat ->
  law (n_agents net) (select_interacting_agent_pair (a:=RA) uni_rng false net)
    (fun l => In l (sublists 2 (seq 0 (n_agents net)))) (fun v => mean_of v (sublists 2 (seq 0 (n_agents net)))).
Proof.
  intros H2. pose proof (draw_law None 2 (n_agents net) []) as L. cbv beta iota zeta in L. rewrite seq_all, seq_length in L. exact (L H2).
Qed.
(** The pair with a network. *)
Definition pair_mean (ns : list (list nat)) (n : nat) (v : list nat -> R) : R :=
  mean_of (fun i => mean_of (fun j => v [i; j]) (nth i ns [])) (seq 0 n).
Lemma mean_nth (f : nat -> R) (l : list nat) : mean_of (fun k => f (nth k l 0%nat)) (seq 0 (length l)) = mean_of f l.
Proof. unfold mean_of. rewrite seq_length. f_equal. transitivity (total f (map (fun p => nth p l 0%nat) (seq 0 (length l)))); [now rewrite total_map|now rewrite nth_map_seq]. Qed.
Lemma mean_ext {A} (f h : A -> R) l : (forall x, In x l -> f x = h x) -> mean_of f l = mean_of h l.
Proof. intros H. unfold mean_of. now rewrite (total_ext f h l H). Qed.
Lemma pair_law_network {A} (net : network A R) : (0 < n_agents net)%nat -> @can_select RA A true net ->
  law 2 (select_interacting_agent_pair (a:=RA) uni_rng true net)
    (fun l => exists i j, l = [i; j] /\ (i < n_agents net)%nat /\ In j (nth i (neigh net) []))
    (pair_mean (neigh net) (n_agents net)).
Proof.
  intros Hn [Hc|(Hw & HN & Hr)]; [discriminate|]. destruct Hw as (W1 & _).
  assert (HN' : (Z.of_nat (n_agents net) <= 18446744073709551616)%Z) by exact HN. clear HN.
  assert (W : length (neigh net) = n_agents net) by exact W1. clear W1.
  set (Q := fun z1 (s : list R) =>
    neighbours <- get_neighbours net (Z.to_nat z1) ;;
    let (index_in_neigh, s) := r_int uni_rng 0 (to_size_t (Z.of_nat (length neighbours) - 1)) s in
    agent2_idx <- vget neighbours (Z.to_nat index_in_neigh) ;;
    Ok ([Z.to_nat z1; agent2_idx], s)).
  assert (G := law_int (list nat) 1 0 (Z.of_nat (n_agents net) - 1)%Z Q
     (fun l => exists i j, l = [i; j] /\ (i < n_agents net)%nat /\ In j (nth i (neigh net) []))
     (fun z v => mean_of (fun j => v [Z.to_nat z; j]) (nth (Z.to_nat z) (neigh net) [])) ltac:(lia)).
  match type of G with ?h -> _ => assert (HQ : h) end.
  { intros z Hz. unfold Q. assert (Lz : (Z.to_nat z < n_agents net)%nat) by lia. set (ns := nth (Z.to_nat z) (neigh net) []).
    assert (R1 : (0 < length ns)%nat) by exact (proj1 (Hr _ Lz)). assert (R2 : (Z.of_nat (length ns) <= 18446744073709551616)%Z) by exact (proj2 (Hr _ Lz)).
    apply law_ext with (fun s => let (k, s) := r_int uni_rng 0 (Z.of_nat (length ns) - 1) s in agent2_idx <- vget ns (Z.to_nat k) ;; Ok ([Z.to_nat z; agent2_idx], s)).
    2:{ intros us. unfold get_neighbours. rewrite (vget_lt _ _ _ []) by (rewrite W; exact Lz). cbn [bind]. fold ns.
        now rewrite to_size_t_small by lia. }
    eapply law_value.
    - apply (law_int (list nat) 0 0 (Z.of_nat (length ns) - 1)%Z (fun k s => agent2_idx <- vget ns (Z.to_nat k) ;; Ok ([Z.to_nat z; agent2_idx], s))
        _ (fun k v => v [Z.to_nat z; nth (Z.to_nat k) ns 0%nat])); [lia|].
      intros k Hk. apply law_ret.
      + exists (Z.to_nat z), (nth (Z.to_nat k) ns 0%nat). split; auto. split; auto. apply (nth_In ns). lia.
      + intros us. rewrite (vget_lt _ _ _ 0%nat) by lia. reflexivity.
    - intros v. cbv beta. replace (Z.to_nat (Z.of_nat (length ns) - 1 - 0 + 1)) with (length ns) by lia.
      rewrite <- (mean_nth (fun j => v [Z.to_nat z; j]) ns). apply mean_ext. intros k _. now rewrite Z.add_0_l, Nat2Z.id. }
  specialize (G HQ). eapply law_value.
  - eapply law_ext; [exact G|]. intros us. unfold select_interacting_agent_pair, Q. cbn [negb]. change (@n_agents A (F RA) net) with (@n_agents A R net). rewrite to_size_t_small by lia. reflexivity.
  - intros v. unfold pair_mean. replace (Z.to_nat (Z.of_nat (n_agents net) - 1 - 0 + 1)) with (n_agents net) by lia.
    apply mean_ext. intros i _. now rewrite Z.add_0_l, Nat2Z.id.
Qed.
