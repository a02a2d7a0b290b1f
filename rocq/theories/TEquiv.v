(** Property theorems C100 (the DeGroot model is linear, order preserving and non-expansive) and C101 (the numbering of the
    agents is irrelevant) in exact arithmetic. *)
From Verif Require Import Base BaseFacts Arith64 RFacts MNetwork SNetwork PNetwork MTarjan MAgents MDeGroot SDeGroot PDeGroot TDeGroot SEquiv.
From Coq Require Import Reals Lra Psatz Permutation.
Local Open Scope R_scope.

Lemma iterate_nth g k i : (i < n_agents g)%nat -> nth i (iterate g (S k)) 0 = Rsum (map (fun p => snd p * nth (fst p) (iterate g k) 0) (row g i)).
Proof. intros Hi. cbn [iterate]. rewrite nth_map_seq by exact Hi. apply weighted_sum_R. Qed.
Lemma row_in (g : network (simple_agent R) R) i p : wf g -> (i < n_agents g)%nat -> In p (row g i) -> (fst p < n_agents g)%nat.
Proof.
  intros Hwf Hi Hp. destruct (rows_of g i Hwf Hi) as [_ E]. destruct Hwf as (_ & _ & _ & W4).
  assert (In (fst p) (nth i (neigh g) [])) as H by (rewrite <- E; now apply in_map). now apply W4 in H.
Qed.
Lemma row_same (m m' : degroot RA) i : same_graph m m' -> row (dg_net m' : network (simple_agent R) R) i = row (dg_net m : network (simple_agent R) R) i.
Proof. intros (_ & A & B). unfold row. exact (f_equal2 (fun u v => combine (nth i u []) (nth i v [])) (eq_sym A) (eq_sym B)). Qed.
Lemma size_same (m m' : degroot RA) i : same_graph m m' -> (i < n_agents (dg_net m))%nat -> (i < n_agents (dg_net m' : network (simple_agent R) R))%nat.
Proof. intros (A & _) H. eapply Nat.lt_le_trans; [exact H|]. apply Nat.eq_le_incl. exact A. Qed.
Lemma Rsum_map_ext {A} (f h : A -> R) l : (forall x, In x l -> f x = h x) -> Rsum (map f l) = Rsum (map h l).
Proof. intros H. f_equal. now apply map_ext_in. Qed.
Lemma Rsum_lin {A} (f h : A -> R) a b l : Rsum (map (fun x => a * f x + b * h x) l) = a * Rsum (map f l) + b * Rsum (map h l).
Proof. induction l as [|x l IH]; cbn [map]; rewrite ?Rsum_nil, ?Rsum_cons; [ring|]. rewrite IH. ring. Qed.
Lemma Rsum_mono {A} (f h : A -> R) l : (forall x, In x l -> f x <= h x) -> Rsum (map f l) <= Rsum (map h l).
Proof.
  induction l as [|x l IH]; cbn [map]; rewrite ?Rsum_nil, ?Rsum_cons; intros H; [lra|].
  pose proof (H x (or_introl eq_refl)). specialize (IH (fun u Hu => H u (or_intror Hu))). lra.
Qed.

(** ** C100 *)
(** The run from a combination of two initial states is the combination of the runs. *)
Theorem C100_linear k (m1 m2 m3 : degroot RA) a b : ready m1 -> ready m2 -> ready m3 -> same_graph m1 m2 -> same_graph m1 m3 ->
  (forall i, (i < n_agents (dg_net m1))%nat -> dg_opinion m3 i = a * dg_opinion m1 i + b * dg_opinion m2 i) ->
  exists m1' m2' m3', degroot_run k m1 = Ok m1' /\ degroot_run k m2 = Ok m2' /\ degroot_run k m3 = Ok m3' /\
    forall i, (i < n_agents (dg_net m1))%nat -> dg_opinion m3' i = a * dg_opinion m1' i + b * dg_opinion m2' i.
Proof.
  intros R1 R2 R3 S2 S3 H. destruct (run_ok k m1 R1) as (m1' & E1 & _ & O1 & _), (run_ok k m2 R2) as (m2' & E2 & _ & O2 & _), (run_ok k m3 R3) as (m3' & E3 & _ & O3 & _).
  exists m1', m2', m3'. do 3 (split; auto). enough (It : forall k i, (i < n_agents (dg_net m1))%nat -> @nth R i (iterate (dg_net m3) k) 0 = a * @nth R i (iterate (dg_net m1) k) 0 + b * @nth R i (iterate (dg_net m2) k) 0).
  { unfold dg_opinion. rewrite O1, O2, O3. exact (It k). }
  clear -R1 R2 R3 S3 S2 H.
  induction k as [|k IH]; [exact H|]. intros i Hi. rewrite !iterate_nth; try (eapply size_same; eassumption); auto.
  rewrite (row_same m1 m2 i S2), (row_same m1 m3 i S3), <- Rsum_lin. apply Rsum_map_ext. intros p Hp.
  rewrite (IH (fst p)) by (eapply row_in; eauto; apply R1). ring.
Qed.
(** With non-negative weights, larger initial opinions give larger opinions. *)
Theorem C100_order_preserving k (m1 m2 : degroot RA) : ready m1 -> ready m2 -> same_graph m1 m2 ->
  (forall i, (i < n_agents (dg_net m1))%nat -> Forall (fun w => 0 <= w) (nth i (wts (dg_net m1)) [])) ->
  (forall i, (i < n_agents (dg_net m1))%nat -> dg_opinion m1 i <= dg_opinion m2 i) ->
  exists m1' m2', degroot_run k m1 = Ok m1' /\ degroot_run k m2 = Ok m2' /\
    forall i, (i < n_agents (dg_net m1))%nat -> dg_opinion m1' i <= dg_opinion m2' i.
Proof.
  intros R1 R2 S2 HW H. destruct (run_ok k m1 R1) as (m1' & E1 & _ & O1 & _), (run_ok k m2 R2) as (m2' & E2 & _ & O2 & _).
  exists m1', m2'. do 2 (split; auto). enough (It : forall k i, (i < n_agents (dg_net m1))%nat -> @nth R i (iterate (dg_net m1) k) 0 <= @nth R i (iterate (dg_net m2) k) 0).
  { unfold dg_opinion. rewrite O1, O2. exact (It k). }
  clear -R1 R2 S2 HW H.
  induction k as [|k IH]; [exact H|]. intros i Hi. rewrite !iterate_nth; try (eapply size_same; eassumption); auto.
  rewrite (row_same m1 m2 i S2). apply Rsum_mono. intros p Hp.
  assert (0 <= snd p). { destruct (rows_of (dg_net m1) i (proj1 R1) Hi) as [E _]. assert (HW' : Forall (fun w : R => 0 <= w) (map snd (@row (simple_agent R) R (dg_net m1) i))) by (rewrite E; exact (HW i Hi)). rewrite Forall_forall in HW'. apply HW'. now apply in_map. }
  apply Rmult_le_compat_l; auto. apply IH. eapply row_in; eauto. apply R1.
Qed.
(** With row-normalised weights, two runs never get further apart than their initial opinions: errors in the input are not amplified. *)
Theorem C100_non_expansive k (m1 m2 : degroot RA) d : ready m1 -> ready m2 -> same_graph m1 m2 -> stochastic (dg_net m1) ->
  (forall i, (i < n_agents (dg_net m1))%nat -> Rabs (dg_opinion m1 i - dg_opinion m2 i) <= d) ->
  exists m1' m2', degroot_run k m1 = Ok m1' /\ degroot_run k m2 = Ok m2' /\
    forall i, (i < n_agents (dg_net m1))%nat -> Rabs (dg_opinion m1' i - dg_opinion m2' i) <= d.
Proof.
  intros R1 R2 S2 HW H. destruct (run_ok k m1 R1) as (m1' & E1 & _ & O1 & _), (run_ok k m2 R2) as (m2' & E2 & _ & O2 & _).
  exists m1', m2'. do 2 (split; auto). enough (It : forall k i, (i < n_agents (dg_net m1))%nat -> Rabs (@nth R i (iterate (dg_net m1) k) 0 - @nth R i (iterate (dg_net m2) k) 0) <= d).
  { unfold dg_opinion. rewrite O1, O2. exact (It k). }
  clear -R1 R2 S2 HW H.
  induction k as [|k IH]; [exact H|]. intros i Hi. rewrite !iterate_nth; try (eapply size_same; eassumption); auto.
  rewrite (row_same m1 m2 i S2). destruct (HW i Hi) as (W1 & W2). destruct (rows_of (dg_net m1) i (proj1 R1) Hi) as [E _]. rewrite <- E in W1, W2.
  set (f := fun p : nat * R => nth (fst p) (iterate (dg_net m1) k) 0 - nth (fst p) (iterate (dg_net m2) k) 0).
  assert (Q : forall l, Forall (fun w => 0 <= w) (map snd l) -> (forall p, In p l -> Rabs (f p) <= d) ->
     Rabs (Rsum (map (fun p => snd p * nth (fst p) (iterate (dg_net m1) k) 0) l) - Rsum (map (fun p => snd p * nth (fst p) (iterate (dg_net m2) k) 0) l)) <= Rsum (map snd l) * d).
  { induction l as [|p l IHl]; intros F G; cbn [map]; rewrite ?Rsum_nil, ?Rsum_cons; [rewrite Rminus_0_r, Rabs_R0; lra|].
    inversion F; subst. specialize (IHl H3 (fun u Hu => G u (or_intror Hu))). specialize (G p (or_introl eq_refl)).
    match goal with |- Rabs (?a + ?b - (?c + ?e)) <= _ => replace (a + b - (c + e)) with (snd p * f p + (b - e)) by (unfold f; ring) end.
    eapply Rle_trans; [apply Rabs_triang|]. rewrite Rabs_mult, (Rabs_right (snd p)) by lra.
    assert (snd p * Rabs (f p) <= snd p * d) by (apply Rmult_le_compat_l; auto). lra. }
  rewrite <- (Rmult_1_l d), <- W2. apply Q; auto. intros p Hp. apply IH. eapply row_in; eauto. apply R1.
Qed.
(** With row-normalised weights, scaling and shifting the initial opinions scales and shifts every later opinion. *)
Theorem C100_scale_and_shift k (m1 m2 : degroot RA) a c : ready m1 -> ready m2 -> same_graph m1 m2 -> stochastic (dg_net m1) ->
  (forall i, (i < n_agents (dg_net m1))%nat -> dg_opinion m2 i = a * dg_opinion m1 i + c) ->
  exists m1' m2', degroot_run k m1 = Ok m1' /\ degroot_run k m2 = Ok m2' /\
    forall i, (i < n_agents (dg_net m1))%nat -> dg_opinion m2' i = a * dg_opinion m1' i + c.
Proof.
  intros R1 R2 S2 HW H. destruct (run_ok k m1 R1) as (m1' & E1 & _ & O1 & _), (run_ok k m2 R2) as (m2' & E2 & _ & O2 & _).
  exists m1', m2'. do 2 (split; auto). enough (It : forall k i, (i < n_agents (dg_net m1))%nat -> @nth R i (iterate (dg_net m2) k) 0 = a * @nth R i (iterate (dg_net m1) k) 0 + c).
  { unfold dg_opinion. rewrite O1, O2. exact (It k). }
  clear -R1 R2 S2 HW H.
  induction k as [|k IH]; [exact H|]. intros i Hi. rewrite !iterate_nth; try (eapply size_same; eassumption); auto.
  rewrite (row_same m1 m2 i S2). destruct (HW i Hi) as (_ & W2). destruct (rows_of (dg_net m1) i (proj1 R1) Hi) as [E _]. rewrite <- E in W2.
  assert (W3 : Rsum (map (fun p : nat * R => snd p) (@row (simple_agent R) R (dg_net m1) i)) = 1) by exact W2.
  rewrite <- (Rmult_1_r c), <- W3 at 1. rewrite <- Rsum_lin. apply Rsum_map_ext. intros p Hp. rewrite (IH (fst p)) by (eapply row_in; eauto; apply R1). ring.
Qed.

(** ** C101 *)
Lemma Rsum_perm l l' : Permutation l l' -> Rsum l = Rsum l'.
Proof. induction 1; rewrite ?Rsum_cons; try lra; reflexivity. Qed.
Lemma fmax_RA x y : fmax RA x y = Rmax x y.
Proof. unfold fmax. cbn [flt RA]. unfold Rmax. destruct (Rltb_spec x y), (Rle_dec x y); auto; lra. Qed.
Lemma fold_max_perm (l l' : list R) : Permutation l l' -> forall x, fold_left (fmax RA) l x = fold_left (fmax RA) l' x.
Proof.
  induction 1 as [|y l l' HP IH|y z l|l1 l2 l3 H1 IH1 H2 IH2]; intros x; cbn [fold_left]; auto; [|now rewrite IH1].
  f_equal. rewrite !fmax_RA, <- !Rmax_assoc, (Rmax_comm z y). reflexivity.
Qed.
Lemma renumbering_perm n sg : renumbering n sg -> Permutation (map sg (seq 0 n)) (seq 0 n).
Proof.
  intros (H1 & H2). apply NoDup_Permutation_bis.
  - assert (G : forall l, NoDup l -> (forall i, In i l -> (i < n)%nat) -> NoDup (map sg l)).
    { induction l as [|i l IH]; intros N B; cbn [map]; [constructor|]. inversion N; subst. constructor; [|apply IH; auto; intros; apply B; now right].
      intros C. apply in_map_iff in C as (j & E & Hj). assert (i = j) by (apply H2; [apply B; now left|apply B; now right|auto]). subst. contradiction. }
    apply G; [apply seq_NoDup|]. intros i Hi. apply in_seq in Hi. lia.
  - rewrite map_length. auto.
  - intros u Hu. apply in_map_iff in Hu as (i & <- & Hi). apply in_seq in Hi. apply in_seq. specialize (H1 i). lia.
Qed.
Lemma diffs_nth (xs ys : list R) n : length xs = n -> length ys = n ->
  map (fun p => Rabs (fst p - snd p)) (combine xs ys) = map (fun i => Rabs (nth i xs 0 - nth i ys 0)) (seq 0 n).
Proof.
  revert ys n. induction xs as [|x xs IH]; intros [|y ys] [|n] H1 H2; try discriminate; auto. cbn [combine map seq fst snd nth]. f_equal.
  rewrite <- seq_shift, map_map. apply IH; cbn in *; lia.
Qed.
(** Renumbering the agents renumbers every later state; the runs stop at the same iteration. *)
Theorem C101_numbering_is_irrelevant k (m m' : degroot RA) sg : ready m -> ready m' -> renumbering (n_agents (dg_net m)) sg -> renumbered sg m m' ->
  exists mk mk', degroot_run k m = Ok mk /\ degroot_run k m' = Ok mk' /\
    (forall i, (i < n_agents (dg_net m))%nat -> dg_opinion mk' (sg i) = dg_opinion mk i) /\
    max_opinion_diff mk' = max_opinion_diff mk /\ (degroot_finished mk' = degroot_finished mk).
Proof.
  intros HR HR' Hsg (N & T & B & D & H).
  assert (It : forall k i, (i < n_agents (dg_net m))%nat -> nth (sg i) (iterate (dg_net m') k) 0 = nth i (iterate (dg_net m) k) 0).
  { clear k. induction k as [|k IH]; intros i Hi; [apply (proj1 (H i Hi))|]. rewrite !iterate_nth; auto; [|eapply Nat.lt_le_trans; [now apply Hsg|apply Nat.eq_le_incl; exact N]].
    rewrite (Rsum_perm _ _ (Permutation_map _ (proj2 (H i Hi)))), map_map. apply Rsum_map_ext. intros p Hp. cbn [fst snd]. f_equal. apply IH. eapply row_in; eauto. apply HR. }
  destruct (run_ok k m HR) as (mk & E & _ & O & _ & _ & _ & C1 & M1 & D1), (run_ok k m' HR') as (mk' & E' & _ & O' & _ & _ & _ & C2 & M2 & D2).
  exists mk, mk'. do 2 (split; auto). split; [unfold dg_opinion; rewrite O, O'; apply It|].
  assert (DD : max_opinion_diff mk' = max_opinion_diff mk).
  { rewrite D1, D2. destruct k as [|k]; [symmetry; exact D|]. f_equal.
    assert (L' : forall j, length (iterate (dg_net m') j) = n_agents (dg_net m)) by (intros j; rewrite iterate_length; symmetry; exact N).
    assert (L : forall j, length (iterate (dg_net m) j) = n_agents (dg_net m)) by (intros j; apply iterate_length).
    rewrite (diffs_nth _ _ _ (L' k) (L' (S k))), (diffs_nth _ _ _ (L k) (L (S k))).
    rewrite <- (fold_max_perm _ _ (Permutation_map (fun i => Rabs (nth i (iterate (dg_net m') k) 0 - nth i (iterate (dg_net m') (S k)) 0)) (renumbering_perm _ sg Hsg))).
    rewrite map_map. f_equal. apply map_ext_in. intros i Hi. apply in_seq in Hi. now rewrite !It by lia. }
  split; [exact DD|].
  assert (BB : forall j (u u' : degroot RA) v v', dg_base u = dg_base u' -> degroot_run j u = Ok v -> degroot_run j u' = Ok v' -> dg_base v = dg_base v').
  { induction j as [|j IH]; intros u u' v v' Eb R1 R2; cbn [degroot_run] in R1, R2; [congruence|].
    apply bind_ok_inv in R1 as (u1 & I1 & R1). apply bind_ok_inv in R2 as (u2 & I2 & R2). apply (IH u1 u2); auto.
    unfold degroot_iteration in I1, I2. apply bind_ok_inv in I1 as (? & _ & I1). apply bind_ok_inv in I1 as ([? ?] & _ & I1). apply bind_ok_inv in I2 as (? & _ & I2). apply bind_ok_inv in I2 as ([? ?] & _ & I2).
    inversion I1; inversion I2; subst. cbn [dg_base]. now rewrite Eb. }
  unfold degroot_finished. rewrite DD, C1, C2, T, (BB k m m' mk mk' B E E'). reflexivity.
Qed.

(** In every arithmetic (so also with doubles): if the neighbours are listed in the corresponding order, renumbering gives
    the same opinions bit by bit. *)
Theorem C101_any_arithmetic (a : Arith) k sg : forall (m m' : degroot a), ready m -> ready m' -> renumbering (n_agents (dg_net m)) sg ->
  n_agents (dg_net m) = n_agents (dg_net m') ->
  (forall i, (i < n_agents (dg_net m))%nat -> nth_error (opinions (dg_net m')) (sg i) = nth_error (opinions (dg_net m)) i /\
    row (dg_net m') (sg i) = map (fun p => (sg (fst p), snd p)) (row (dg_net m) i)) ->
  exists mk mk', degroot_run k m = Ok mk /\ degroot_run k m' = Ok mk' /\
    forall i, (i < n_agents (dg_net m))%nat -> nth_error (opinions (dg_net mk')) (sg i) = nth_error (opinions (dg_net mk)) i.
Proof.
  induction k as [|k IH]; intros m m' HR HR' Hsg N H.
  - exists m, m'. cbn. split; auto. split; auto. intros i Hi. now apply H.
  - destruct (C25_synchronous_step a m HR) as (m1 & E1 & R1 & N1 & G1 & W1 & _ & _ & _ & _ & O1).
    destruct (C25_synchronous_step a m' HR') as (m1' & E1' & R1' & N1' & G1' & W1' & _ & _ & _ & _ & O1').
    destruct (IH m1 m1') as (mk & mk' & F & F' & Q); auto.
    + now rewrite N1.
    + now rewrite N1, N1'.
    + intros i. rewrite N1. intros Hi. assert (Rows : forall (u v : degroot a) x, ready u -> ready v -> n_agents (dg_net u) = n_agents (dg_net v) -> (x < n_agents (dg_net v))%nat ->
         (forall i, get_neighbours (dg_net u) i = get_neighbours (dg_net v) i) -> (forall i, get_weights (dg_net u) i = get_weights (dg_net v) i) -> row (dg_net u) x = row (dg_net v) x).
      { intros u v x (Wu & _) (Wv & _) Hn Hx A B. specialize (A x). specialize (B x). unfold get_neighbours, get_weights, vget in A, B. unfold n_agents in Hn, Hx.
        destruct Wu as (U1 & U2 & _), Wv as (V1 & V2 & _). unfold row.
        rewrite (nth_error_nth' (neigh (dg_net u)) []), (nth_error_nth' (neigh (dg_net v)) []) in A by lia.
        rewrite (nth_error_nth' (wts (dg_net u)) []), (nth_error_nth' (wts (dg_net v)) []) in B by lia. cbn in A, B. inversion A. inversion B. congruence. }
      destruct (H i Hi) as (Ho & Hrow). split.
      * rewrite (O1 i Hi), (O1' (sg i)) by (rewrite <- N; now apply Hsg). f_equal. rewrite Hrow.
        unfold weighted_sum. assert (B : forall p, In p (row (dg_net m) i) -> (fst p < n_agents (dg_net m))%nat).
        { intros [j w] Hp. apply in_combine_l in Hp. destruct HR as ((_ & _ & _ & W4) & _). cbn [fst]. now apply W4 in Hp. }
        clear -B H. revert B. generalize (f0 a) at 2 4 as acc. generalize (row (dg_net m) i) as l.
        induction l as [|p l IHl]; intros acc B; cbn [map fold_left]; auto. cbn [fst snd].
        assert (E : nth (sg (fst p)) (opinions (dg_net m')) (f0 a) = nth (fst p) (opinions (dg_net m)) (f0 a)).
        { destruct (H (fst p) (B p (or_introl eq_refl))) as (X & _).
          destruct (nth_error (opinions (dg_net m)) (fst p)) as [x|] eqn:Ex.
          - rewrite (nth_error_nth _ _ _ X), (nth_error_nth _ _ _ Ex). reflexivity.
          - rewrite !nth_overflow; auto; now apply nth_error_None. }
        rewrite E. apply IHl. intros u Hu. apply B. now right.
      * rewrite (Rows m1 m i), (Rows m1' m' (sg i)); auto. rewrite <- N. now apply Hsg.
    + exists mk, mk'. cbn [degroot_run]. rewrite E1, E1'. cbn [bind]. split; auto. split; auto. intros i Hi. apply Q. now rewrite N1.
Qed.

(** ** Non-vacuity *)
Definition ring_net (x0 x1 x2 : R) (first : bool) : network (simple_agent R) R :=
  mkNet [mkSimple x0; mkSimple x1; mkSimple x2]
    (if first then [[0; 1]; [1; 2]; [2; 0]]%nat else [[1; 0]; [2; 1]; [0; 2]]%nat)
    [if first then [1/4; 3/4] else [3/4; 1/4]; if first then [1/4; 3/4] else [3/4; 1/4]; if first then [1/4; 3/4] else [3/4; 1/4]] Incoming.
Definition ring_model (x0 x1 x2 : R) (first : bool) : degroot RA := mkDeGroot (a:=RA) (mkBase None 0) (1/100) None (ring_net x0 x1 x2 first) [mkSimple 0; mkSimple 0; mkSimple 0].
Lemma ring_ready x0 x1 x2 first : ready (ring_model x0 x1 x2 first).
Proof.
  split; [|reflexivity]. split; [destruct first; reflexivity|]. split; [reflexivity|]. split.
  - intros i Hi. destruct i as [|[|[|i]]]; [| | |cbn in Hi; lia]; destruct first; reflexivity.
  - intros i j Hj. cbn. destruct i as [|[|[|i]]]; destruct first; cbn in Hj; try (destruct Hj as [<-|[<-|[]]]; lia); destruct i; destruct Hj.
Qed.
Lemma ring_stochastic x0 x1 x2 : stochastic (dg_net (ring_model x0 x1 x2 true)).
Proof. intros i Hi. cbn in Hi. destruct i as [|[|[|i]]]; [| | |lia]; cbn; (split; [repeat constructor; lra|unfold Rsum; cbn; lra]). Qed.
(** Opinions 1, 5, -3 and their images under 2 x + 1; renumbering 0 -> 1 -> 2 -> 0 with the neighbours listed the other way round. *)
Example C100_instance k : exists m1 m2, degroot_run k (ring_model 1 5 (-3) true) = Ok m1 /\ degroot_run k (ring_model 3 11 (-5) true) = Ok m2 /\
  forall i, (i < 3)%nat -> dg_opinion m2 i = 2 * dg_opinion m1 i + 1.
Proof.
  apply (C100_scale_and_shift k (ring_model 1 5 (-3) true) (ring_model 3 11 (-5) true) 2 1 (ring_ready _ _ _ _) (ring_ready _ _ _ _)); [repeat split|apply ring_stochastic|].
  intros i Hi. cbn in Hi. destruct i as [|[|[|i]]]; [| | |lia]; unfold dg_opinion; cbn; lra.
Qed.
Example C100_linear_instance k : exists m1 m2 m3, degroot_run k (ring_model 1 5 (-3) true) = Ok m1 /\ degroot_run k (ring_model 0 1 2 true) = Ok m2 /\ degroot_run k (ring_model 3 14 (-11) true) = Ok m3 /\
  forall i, (i < 3)%nat -> dg_opinion m3 i = 3 * dg_opinion m1 i + - 1 * dg_opinion m2 i.
Proof.
  apply (C100_linear k (ring_model 1 5 (-3) true) (ring_model 0 1 2 true) (ring_model 3 14 (-11) true)); try apply ring_ready; try (repeat split).
  intros i Hi. cbn in Hi. destruct i as [|[|[|i]]]; [| | |lia]; unfold dg_opinion; cbn; lra.
Qed.
Example C100_order_instance k : exists m1 m2, degroot_run k (ring_model 1 5 (-3) true) = Ok m1 /\ degroot_run k (ring_model 1 6 0 true) = Ok m2 /\
  forall i, (i < 3)%nat -> dg_opinion m1 i <= dg_opinion m2 i.
Proof.
  apply (C100_order_preserving k (ring_model 1 5 (-3) true) (ring_model 1 6 0 true)); try apply ring_ready; try (repeat split).
  - intros i Hi. exact (proj1 (ring_stochastic 1 5 (-3) i Hi)).
  - intros i Hi. cbn in Hi. destruct i as [|[|[|i]]]; [| | |lia]; unfold dg_opinion; cbn; lra.
Qed.
Example C100_non_expansive_instance k : exists m1 m2, degroot_run k (ring_model 1 5 (-3) true) = Ok m1 /\ degroot_run k (ring_model 2 5 (-4) true) = Ok m2 /\
  forall i, (i < 3)%nat -> Rabs (dg_opinion m1 i - dg_opinion m2 i) <= 1.
Proof.
  apply (C100_non_expansive k (ring_model 1 5 (-3) true) (ring_model 2 5 (-4) true) 1); try apply ring_ready; [repeat split|apply ring_stochastic|].
  intros i Hi. cbn in Hi. destruct i as [|[|[|i]]]; [| | |lia]; unfold dg_opinion; cbn; apply Rabs_le; lra.
Qed.
(** With a negative weight the order is not kept. *)
Theorem C100_order_with_negative_weights_refuted :
  ~ (forall (m1 m2 : degroot RA), ready m1 -> ready m2 -> same_graph m1 m2 ->
       (forall i, (i < n_agents (dg_net m1))%nat -> dg_opinion m1 i <= dg_opinion m2 i) ->
       exists m1' m2', degroot_run 1 m1 = Ok m1' /\ degroot_run 1 m2 = Ok m2' /\ forall i, (i < n_agents (dg_net m1))%nat -> dg_opinion m1' i <= dg_opinion m2' i).
Proof.
  intros Claim. set (mm := fun x : R => mkDeGroot (a:=RA) (mkBase None 0) (1/100) None (mkNet [mkSimple x] [[0%nat]] [[-1]] Incoming : network (simple_agent R) R) [mkSimple 0] : degroot RA).
  assert (Hr : forall x, ready (mm x)).
  { intros x. split; [|reflexivity]. split; [reflexivity|]. split; [reflexivity|]. split.
    - intros i Hi. destruct i; [reflexivity|cbn in Hi; lia].
    - intros i j Hj. destruct i as [|[|i]]; cbn in Hj; try contradiction. destruct Hj as [<-|[]]. cbn. lia. }
  destruct (Claim (mm 0) (mm 1) (Hr 0) (Hr 1)) as (a & b & E1 & E2 & H).
  - repeat split.
  - intros i Hi. cbn in Hi. destruct i; [|lia]. unfold dg_opinion. cbn. lra.
  - destruct (run_ok 1 (mm 0) (Hr 0)) as (a' & E1' & _ & O1 & _), (run_ok 1 (mm 1) (Hr 1)) as (b' & E2' & _ & O2 & _).
    assert (a' = a) by congruence. assert (b' = b) by congruence. subst a' b'. specialize (H 0%nat ltac:(cbn; lia)). unfold dg_opinion in H. rewrite O1, O2 in H.
    assert (I : forall x, @nth R 0 (iterate (dg_net (mm x)) 1) 0 = 0 + - 1 * x) by reflexivity.
    pose proof (I 0) as I0. pose proof (I 1) as I1. change (@nth R 0 (iterate (dg_net (mm 0)) 1) 0 <= @nth R 0 (iterate (dg_net (mm 1)) 1) 0) in H. rewrite I0, I1 in H. lra.
Qed.
Definition turn (i : nat) : nat := match i with 0%nat => 1%nat | 1%nat => 2%nat | 2%nat => 0%nat | _ => i end.
Lemma turn_renumbering : renumbering 3 turn.
Proof. split; [intros i Hi|intros i j Hi Hj]; destruct i as [|[|[|i]]]; try lia; try (cbn; lia); destruct j as [|[|[|j]]]; try lia; cbn; congruence. Qed.
Example C101_instance k : exists m1 m2, degroot_run k (ring_model 1 5 (-3) true) = Ok m1 /\ degroot_run k (ring_model (-3) 1 5 false) = Ok m2 /\
  (forall i, (i < 3)%nat -> dg_opinion m2 (turn i) = dg_opinion m1 i) /\ max_opinion_diff m2 = max_opinion_diff m1 /\ degroot_finished m2 = degroot_finished m1.
Proof.
  apply (C101_numbering_is_irrelevant k (ring_model 1 5 (-3) true) (ring_model (-3) 1 5 false) turn (ring_ready _ _ _ _) (ring_ready _ _ _ _) turn_renumbering).
  do 4 (split; [reflexivity|]). intros i Hi. cbn in Hi. destruct i as [|[|[|i]]]; [| | |lia]; (split; [reflexivity|]); cbn; apply perm_swap.
Qed.

(** Arithmetic of doubles: three agents, renumbered in a circle with the neighbours in the corresponding order. *)
Definition turned (first : bool) : degroot FA :=
  let h := fdiv FA (f1 FA) (b64_of_Z 3) in let x := f1 FA in let y := b64_of_Z 5 in let z := h in
  mkDeGroot (a:=FA) (base_ctor None) (b64_of_Z 0) None
    (mkNet (if first then [mkSimple x; mkSimple y; mkSimple z] else [mkSimple z; mkSimple x; mkSimple y])
       (if first then [[0; 1]; [1; 2]; [2; 0]]%nat else [[0; 1]; [1; 2]; [2; 0]]%nat) [[h; h]; [h; h]; [h; h]] Incoming) [mkSimple x; mkSimple x; mkSimple x].
Lemma turned_ready b : ready (turned b).
Proof.
  split; [|destruct b; reflexivity]. split; [destruct b; reflexivity|]. split; [destruct b; reflexivity|]. split.
  - intros i Hi. destruct i as [|[|[|i]]]; [| | |destruct b; cbn in Hi; lia]; destruct b; reflexivity.
  - intros i j Hj. destruct b; cbn [turned dg_net neigh n_agents agents length] in *; destruct i as [|[|[|i]]]; cbn in Hj; try (destruct Hj as [<-|[<-|[]]]; lia); destruct i; destruct Hj.
Qed.
Example C101_double_instance k : exists mk mk', degroot_run k (turned true) = Ok mk /\ degroot_run k (turned false) = Ok mk' /\
  forall i, (i < 3)%nat -> nth_error (@opinions FA (dg_net mk')) (turn i) = nth_error (@opinions FA (dg_net mk)) i.
Proof.
  apply (C101_any_arithmetic FA k turn (turned true) (turned false) (turned_ready _) (turned_ready _) turn_renumbering eq_refl).
  intros i Hi. change (n_agents (dg_net (turned true))) with 3%nat in Hi. destruct i as [|[|[|i]]]; [| | |lia]; split; reflexivity.
Qed.

(** Listing the same neighbours in another order is not harmless with doubles: 1 + 2^-60 - 1 depends on the order. *)
Definition listed (first : bool) : degroot FA :=
  let x := f1 FA in let t := fdiv FA x (b64_of_Z (2 ^ 60)) in let y := fsub FA (f0 FA) x in
  mkDeGroot (a:=FA) (base_ctor None) (b64_of_Z 0) None
    (mkNet [mkSimple x; mkSimple t; mkSimple y] [if first then [0; 1; 2] else [0; 2; 1]; []; []]%nat [[x; x; x]; []; []] Incoming) [mkSimple x; mkSimple x; mkSimple x].
Lemma listed_ready b : ready (listed b).
Proof.
  split; [|destruct b; reflexivity]. split; [destruct b; reflexivity|]. split; [destruct b; reflexivity|]. split.
  - intros i Hi. destruct i as [|[|[|i]]]; [| | |destruct b; cbn in Hi; lia]; destruct b; reflexivity.
  - intros i j Hj. destruct b; cbn [listed dg_net neigh n_agents agents length] in *; destruct i as [|[|[|i]]]; cbn in Hj; try (destruct Hj as [<-|[<-|[<-|[]]]]; lia); try destruct Hj; destruct i; destruct Hj.
Qed.
Definition firsts_differ (r r' : res (degroot FA)) : bool :=
  match r, r' with Ok m, Ok m' => match @opinions FA (dg_net m), @opinions FA (dg_net m') with x :: _, y :: _ => negb (feq FA x y) | _, _ => false end | _, _ => false end.
Lemma firsts_differ_ok r r' : firsts_differ r r' = true -> exists m m' x l y l', r = Ok m /\ r' = Ok m' /\ @opinions FA (dg_net m) = x :: l /\ @opinions FA (dg_net m') = y :: l' /\ feq FA x y = false.
Proof.
  destruct r as [m| | |], r' as [m'| | |]; try discriminate. cbn [firsts_differ]. intros H.
  destruct (@opinions FA (dg_net m)) as [|x l] eqn:E1; [discriminate|]. destruct (@opinions FA (dg_net m')) as [|y l'] eqn:E2; [discriminate|].
  exists m, m', x, l, y, l'. do 4 (split; auto). now apply Bool.negb_true_iff.
Qed.
Theorem C101_double_any_listing_refuted :
  ~ (forall (m m' mk mk' : degroot FA), ready m -> ready m' -> n_agents (dg_net m) = n_agents (dg_net m') ->
       (forall i, (i < n_agents (dg_net m))%nat -> nth_error (@opinions FA (dg_net m')) i = nth_error (@opinions FA (dg_net m)) i /\
          Permutation (row (dg_net m') i) (row (dg_net m) i)) ->
       degroot_run 1 m = Ok mk -> degroot_run 1 m' = Ok mk' ->
       forall i x y, nth_error (@opinions FA (dg_net mk)) i = Some x -> nth_error (@opinions FA (dg_net mk')) i = Some y -> feq FA x y = true).
Proof.
  intros Claim.
  assert (B : firsts_differ (degroot_run 1 (listed true)) (degroot_run 1 (listed false)) = true) by (vm_compute; reflexivity).
  destruct (firsts_differ_ok _ _ B) as (m & m' & x & l & y & l' & E & E' & O & O' & D).
  enough (feq FA x y = true) by congruence.
  apply (Claim (listed true) (listed false) m m' (listed_ready _) (listed_ready _) eq_refl) with (i := 0%nat); auto; [|now rewrite O|now rewrite O'].
  intros i Hi. change (n_agents (dg_net (listed true))) with 3%nat in Hi. destruct i as [|[|[|i]]]; [| | |lia]; split; try reflexivity; try (apply Permutation_refl).
  cbn. apply perm_skip, perm_swap.
Qed.
Print Assumptions C100_linear.
Print Assumptions C100_order_preserving.
Print Assumptions C100_non_expansive.
Print Assumptions C100_scale_and_shift.
Print Assumptions C101_numbering_is_irrelevant.
Print Assumptions C101_any_arithmetic.
Print Assumptions C100_order_with_negative_weights_refuted.
Print Assumptions C101_double_any_listing_refuted.
