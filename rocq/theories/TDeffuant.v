(** Property theorems C29-C34 and C37: the Deffuant model on real-valued opinions. *)
From Verif Require Import Base BaseFacts Arith64 RFacts MRandom SRandom PRandom TRandom WRandom MNetwork SNetwork PNetwork2 MNetGen TNetGen MAgents MDeGroot SDeGroot MDeffuant SDeffuant PDeffuant.
From Coq Require Import Reals Lra Psatz.

(** C29. An iteration is n_agents encounters of the pairs that the generator selects; an encounter
    changes at most the two selected agents and only below the threshold ([meets]). *)
Theorem C29_iteration_is_n_encounters (a : Arith) (g : Rng a) (m : deffuant (simple_agent (F a))) s :
  sample_ok g -> int_ok g -> can_select (use_network m) (df_net m) ->
  exists m' s' ps, simple_iteration g m s = Ok (m', s') /\
    length ps = n_agents (df_net m) /\
    pairs_drawn g (use_network m) (df_net m) s ps s' /\
    met (homophily_threshold m) (mu m) (opinions (df_net m)) ps (opinions (df_net m')) /\
    neigh (df_net m') = neigh (df_net m) /\ wts (df_net m') = wts (df_net m) /\ dir (df_net m') = dir (df_net m) /\
    n_agents (df_net m') = n_agents (df_net m) /\
    homophily_threshold m' = homophily_threshold m /\ mu m' = mu m /\ use_network m' = use_network m /\
    iterations (df_base m') = ((iterations (df_base m) + 1) mod 2 ^ 64)%Z /\
    max_iterations (df_base m') = max_iterations (df_base m).
Proof.
  intros Hs Hi Hc. destruct (iteration_ok g Hs Hi m s Hc) as (l' & s' & ps & E & HL & Hp & D & V & M).
  do 3 eexists. split; [exact E|]. split; [exact Hp|]. split; [exact D|]. split; [exact M|].
  cbn [df_net neigh wts dir with_agents homophily_threshold mu use_network df_base]. repeat split; auto.
Qed.

(** C30. The selected pair. *)
Theorem C30_selection (a : Arith) (g : Rng a) (A : Type) use (net : network A (F a)) s :
  sample_ok g -> int_ok g -> 0 < n_agents net -> can_select use net ->
  exists i j s', select_interacting_agent_pair g use net s = Ok ([i; j], s') /\
    i < n_agents net /\ j < n_agents net /\
    (use = false -> 2 <= n_agents net -> i <> j) /\
    (use = true -> exists ns, get_neighbours net i = Ok ns /\ In j ns).
Proof.
  intros Hs Hi Hn Hc. destruct (select_ok g Hs Hi use net s Hn Hc) as (i & j & s' & E & V1 & V2 & V3 & V4). cbn [fst snd] in *.
  exists i, j, s'. split; auto. split; auto. split; auto. split.
  - intros Hu H2. specialize (V3 Hu H2). lia.
  - intros Hu. specialize (V4 Hu). exists (nth i (neigh net) []). split; auto. unfold get_neighbours.
    apply vget_lt. destruct (Nat.lt_ge_cases i (length (neigh net))); auto. rewrite nth_overflow in V4 by lia. destruct V4.
Qed.

(** C30. Without a network the pair is what std::sample picks from all the agents; with one, the first
    agent is the value drawn from 0..n-1 and the second is the neighbour at the position drawn. So no
    agent and no neighbour is excluded. *)
Theorem C30_selection_without_network (a : Arith) (g : Rng a) (A : Type) (net : network A (F a)) s :
  sample_ok g -> 2 <= n_agents net ->
  select_interacting_agent_pair g false net s = Ok (r_sample g (n_agents net) 2 s).
Proof.
  intros Hg Hn. unfold select_interacting_agent_pair. cbn [negb].
  destruct (C12_is_the_sample a g None 2 (n_agents net) [] s Hg) as [_ E]; [cbn; lia|]. rewrite E. cbn [population_size].
  pose proof (Hg (n_agents net) 2 s) as H. destruct (r_sample g (n_agents net) 2 s) as [ps s']. cbn [fst snd] in *.
  destruct H as (_ & _ & H). f_equal. f_equal. rewrite <- (map_id ps) at 2. apply map_ext_in. intros p Hp.
  rewrite Forall_forall in H. specialize (H p Hp). cbv beta.
  replace (filter (fun _ : nat => true) (seq 0 (n_agents net))) with (seq 0 (n_agents net)).
  - now rewrite seq_nth.
  - symmetry. clear. induction (seq 0 (n_agents net)); cbn; congruence.
Qed.
Theorem C30_selection_with_network (a : Arith) (g : Rng a) (A : Type) (net : network A (F a)) s z1 s1 ns z2 s2 :
  (0 < Z.of_nat (n_agents net) <= 2 ^ 64)%Z -> (0 < Z.of_nat (length ns) <= 2 ^ 64)%Z -> int_ok g ->
  r_int g 0 (Z.of_nat (n_agents net) - 1) s = (z1, s1) ->
  get_neighbours net (Z.to_nat z1) = Ok ns ->
  r_int g 0 (Z.of_nat (length ns) - 1) s1 = (z2, s2) ->
  exists j, nth_error ns (Z.to_nat z2) = Some j /\
    select_interacting_agent_pair g true net s = Ok ([Z.to_nat z1; j], s2).
Proof.
  intros Hn Hl Hi E1 Eg E2. unfold select_interacting_agent_pair. cbn [negb].
  rewrite to_size_t_small by lia. rewrite E1, Eg. cbn [bind]. rewrite to_size_t_small by lia. rewrite E2.
  pose proof (Hi 0%Z (Z.of_nat (length ns) - 1)%Z s1 ltac:(lia)) as B. rewrite E2 in B. cbn [fst] in B.
  destruct (nth_error ns (Z.to_nat z2)) as [j|] eqn:Ej; [|apply nth_error_None in Ej; lia].
  exists j. split; auto. unfold vget. now rewrite Ej.
Qed.

(** Without a neighbour to choose from, selection reads out of range whatever is drawn (that a network
    with such an agent is never installed by the constructor is C37). *)
Theorem C30_no_neighbour_is_ub (a : Arith) (g : Rng a) (A : Type) (net : network A (F a)) s z s1 :
  r_int g 0 (to_size_t (Z.of_nat (n_agents net) - 1)) s = (z, s1) ->
  get_neighbours net (Z.to_nat z) = Ok [] ->
  select_interacting_agent_pair g true net s = UB UbIndex.
Proof.
  intros E1 E2. unfold select_interacting_agent_pair. cbn [negb]. rewrite E1, E2. cbn [bind length].
  destruct (r_int g 0 _ s1) as [z2 s2]. unfold vget. now destruct (Z.to_nat z2).
Qed.

Local Open Scope R_scope.
(** ** Encounters over the reals *)
Lemma Rsum_upd l i (x : R) : (i < length l)%nat -> Rsum (upd l i x) = Rsum l - nth i l 0 + x.
Proof.
  revert i. induction l as [|y l IH]; intros [|i] H; cbn [length] in H; try lia; cbn [upd nth]; rewrite !Rsum_cons; [lra|].
  rewrite IH by lia. lra.
Qed.

Lemma meets_cases (threshold mu : R) i j (xs xs' : list R) : (i < length xs)%nat -> (j < length xs)%nat ->
  @meets RA threshold mu i j xs xs' ->
  xs' = xs \/
  (i <> j /\ Rabs (nth i xs 0 - nth j xs 0) < threshold /\
   xs' = upd (upd xs i (nth i xs 0 - mu * (nth i xs 0 - nth j xs 0))) j (nth j xs 0 + mu * (nth i xs 0 - nth j xs 0))).
Proof.
  intros Hi Hj (HL & HK & HM). specialize (HM (nth i xs 0) (nth j xs 0) (nth_error_nth' _ _ Hi) (nth_error_nth' _ _ Hj)).
  cbv zeta in HM. cbn [flt fabs fsub fmul fadd RA F] in HM, HL, HK.
  destruct (Rltb_spec (Rabs (nth i xs 0 - nth j xs 0)) threshold) as [Hlt|Hge]; [|now left].
  destruct HM as [H1 H2]. destruct (Nat.eq_dec i j) as [Ee|Hne].
  - left. specialize (H2 Ee). subst j. apply list_ext. intros k. destruct (Nat.eq_dec k i) as [->|Hk]; [|now apply HK].
    rewrite H2. rewrite (nth_error_nth' xs 0 Hi). f_equal. lra.
  - right. split; auto. split; auto. destruct (H1 Hne) as [E1 E2]. apply list_ext. intros k.
    destruct (Nat.eq_dec k j) as [->|Hkj].
    + rewrite nth_error_upd_eq; [exact E2|rewrite upd_length; exact Hj].
    + rewrite nth_error_upd_neq by auto. destruct (Nat.eq_dec k i) as [->|Hki].
      * rewrite nth_error_upd_eq by exact Hi. exact E1.
      * rewrite nth_error_upd_neq by auto. now apply HK.
Qed.

Lemma convex_pair (lo hi x y c : R) : 0 <= c <= 1 -> lo <= x <= hi -> lo <= y <= hi ->
  lo <= x - c * (x - y) <= hi /\ lo <= y + c * (x - y) <= hi.
Proof. intros. repeat split; nra. Qed.
Lemma convex_pair_upper (hi x y c : R) : 0 <= c <= 1 -> x <= hi -> y <= hi -> x - c * (x - y) <= hi /\ y + c * (x - y) <= hi.
Proof. intros. repeat split; nra. Qed.
Lemma convex_pair_lower (lo x y c : R) : 0 <= c <= 1 -> lo <= x -> lo <= y -> lo <= x - c * (x - y) /\ lo <= y + c * (x - y).
Proof. intros. repeat split; nra. Qed.

Lemma gap_le (A B x y : R) : x <= A -> B <= y -> B - A <= y - x.
Proof. intros; lra. Qed.
Lemma cancel_pair (s x y d : R) : s + (x - d - x) + (y + d - y) = s. Proof. lra. Qed.

(** A run of the model preserves whatever each encounter of two agents preserves. *)
Lemma run_invariant (a : Arith) (g : Rng a) (m : deffuant (simple_agent (F a))) s k (P : list (F a) -> Prop) :
  sample_ok g -> int_ok g -> can_select (use_network m) (df_net m) ->
  (forall xs i j xs', length xs = n_agents (df_net m) -> (i < length xs)%nat -> (j < length xs)%nat -> P xs ->
     meets (homophily_threshold m) (mu m) i j xs xs' -> P xs') ->
  P (opinions (df_net m)) ->
  exists m' s', simple_run g k m s = Ok (m', s') /\ P (opinions (df_net m')).
Proof.
  intros Hs Hi Hc HP H0. destruct (run_ok g Hs Hi k m s Hc) as (m' & s' & ps & E & _ & _ & _ & _ & _ & _ & _ & V & M).
  exists m', s'. split; auto.
  eapply (met_inv P _ _ (n_agents (df_net m)) (valid_pair (use_network m) (df_net m))); [|exact M| |exact V|exact H0].
  - intros xs i j xs' HL (V1 & V2 & _) Hx Hm. cbn [fst snd] in V1, V2. eapply HP; eauto; lia.
  - unfold opinions. now rewrite map_length.
Qed.

(** C31. The sum of the opinions, hence their mean, is conserved. *)
Theorem C31_mean_conserved (g : Rng RA) (m : deffuant (simple_agent R)) s k :
  sample_ok g -> int_ok g -> @can_select RA _ (use_network m) (df_net m) ->
  exists m' s', simple_run g k m s = Ok (m', s') /\
    Rsum (@opinions RA (df_net m')) = Rsum (@opinions RA (df_net m)) /\
    length (@opinions RA (df_net m')) = length (@opinions RA (df_net m)).
Proof.
  intros Hs Hi Hc.
  destruct (run_invariant RA g m s k (fun xs => Rsum xs = Rsum (@opinions RA (df_net m)) /\ length xs = length (@opinions RA (df_net m))) Hs Hi Hc) as (m' & s' & E & H); eauto 6.
  intros xs i j xs' HL H1 H2 [HP HPl] HM. destruct (meets_cases _ _ _ _ _ _ H1 H2 HM) as [->|(Hne & _ & ->)]; auto.
  split; [|now rewrite !upd_length]. rewrite <- HP. rewrite Rsum_upd by (rewrite upd_length; exact H2). rewrite nth_upd_neq by auto. rewrite Rsum_upd by exact H1. lra.
Qed.

(** C32. Exact arithmetic: no opinion leaves an interval that contains all of them. *)
Theorem C32_range_kept_real (g : Rng RA) (m : deffuant (simple_agent R)) s k lo hi :
  sample_ok g -> int_ok g -> @can_select RA _ (use_network m) (df_net m) ->
  0 <= mu m <= 1 -> Forall (fun x => lo <= x <= hi) (@opinions RA (df_net m)) ->
  exists m' s', simple_run g k m s = Ok (m', s') /\ Forall (fun x => lo <= x <= hi) (@opinions RA (df_net m')).
Proof.
  intros Hs Hi Hc Hmu HF.
  apply (run_invariant RA g m s k (Forall (fun x => lo <= x <= hi)) Hs Hi Hc); auto.
  intros xs i j xs' HL H1 H2 HP HM. destruct (meets_cases _ _ _ _ _ _ H1 H2 HM) as [->|(Hne & _ & ->)]; auto.
  assert (B1 : lo <= nth i xs 0 <= hi) by (rewrite Forall_forall in HP; apply HP; now apply nth_In).
  assert (B2 : lo <= nth j xs 0 <= hi) by (rewrite Forall_forall in HP; apply HP; now apply nth_In).
  destruct (convex_pair lo hi _ _ _ Hmu B1 B2) as [C1 C2].
  apply Forall_upd; [apply Forall_upd; auto|]; auto.
Qed.

(** C33. Two groups separated by at least the threshold stay separated, and never interact: each
    keeps its own sum. [low i] tells which group agent [i] belongs to. *)
Fixpoint masked_sum (low : nat -> bool) (i : nat) (xs : list R) : R :=
  match xs with [] => 0 | x :: t => (if low i then x else 0) + masked_sum low (S i) t end.
Lemma masked_upd low (x : R) : forall l i0 i, (i < length l)%nat ->
  masked_sum low i0 (upd l i x) = masked_sum low i0 l + (if low (i0 + i)%nat then x - nth i l 0 else 0).
Proof.
  induction l as [|y l IH]; intros i0 [|i] H; cbn [length] in H; try lia; cbn [upd masked_sum nth].
  - rewrite Nat.add_0_r. destruct (low i0); lra.
  - rewrite IH by lia. replace (S i0 + i)%nat with (i0 + S i)%nat by lia. lra.
Qed.

Definition separated (low : nat -> bool) (A B : R) (xs : list R) : Prop :=
  forall i x, nth_error xs i = Some x -> if low i then x <= A else B <= x.

Theorem C33_groups_never_interact (g : Rng RA) (m : deffuant (simple_agent R)) s k (low : nat -> bool) (A B : R) :
  sample_ok g -> int_ok g -> @can_select RA _ (use_network m) (df_net m) ->
  0 <= mu m <= 1 -> homophily_threshold m <= B - A -> separated low A B (@opinions RA (df_net m)) ->
  exists m' s', simple_run g k m s = Ok (m', s') /\
    separated low A B (@opinions RA (df_net m')) /\
    masked_sum low 0 (@opinions RA (df_net m')) = masked_sum low 0 (@opinions RA (df_net m)) /\
    masked_sum (fun i => negb (low i)) 0 (@opinions RA (df_net m')) =
      masked_sum (fun i => negb (low i)) 0 (@opinions RA (df_net m)).
Proof.
  intros Hs Hi Hc Hmu Hgap HF.
  apply (run_invariant RA g m s k (fun xs => separated low A B xs /\
     masked_sum low 0 xs = masked_sum low 0 (@opinions RA (df_net m)) /\
     masked_sum (fun i => negb (low i)) 0 xs = masked_sum (fun i => negb (low i)) 0 (@opinions RA (df_net m))) Hs Hi Hc); auto.
  intros xs i j xs' HL H1 H2 (HP & HS1 & HS2) HM. destruct (meets_cases _ _ _ _ _ _ H1 H2 HM) as [->|(Hne & Hd & ->)]; auto.
  assert (B1 : if low i then nth i xs 0 <= A else B <= nth i xs 0) by (apply HP; now apply nth_error_nth').
  assert (B2 : if low j then nth j xs 0 <= A else B <= nth j xs 0) by (apply HP; now apply nth_error_nth').
  clear HM. change (@mu RA (simple_agent (F RA)) m) with (@mu RA (simple_agent R) m).
  revert Hmu. generalize (@mu RA (simple_agent R) m). intros c Hmu. change (F RA) with R in c.
  change (list (F RA)) with (list R) in *.
  set (x := nth i xs 0) in *. set (y := nth j xs 0) in *.
  assert (Hsame : low i = low j).
  { destruct (low i), (low j); auto; exfalso; revert Hd; apply Rle_not_lt.
    - rewrite Rabs_minus_sym. eapply Rle_trans; [exact Hgap|]. eapply Rle_trans; [|apply Rle_abs]. now apply gap_le.
    - eapply Rle_trans; [exact Hgap|]. eapply Rle_trans; [|apply Rle_abs]. now apply gap_le. }
  assert (N : nth j (upd xs i (x - c * (x - y))) 0 = y) by now rewrite nth_upd_neq by auto.
  split; [|split].
  - intros q z Hz. destruct (Nat.eq_dec q j) as [->|Hqj].
    + rewrite nth_error_upd_eq in Hz by (rewrite upd_length; exact H2). injection Hz as <-. rewrite <- Hsame in *. destruct (low i); [apply (convex_pair_upper A x y c)|apply (convex_pair_lower B x y c)]; auto.
    + rewrite nth_error_upd_neq in Hz by auto. destruct (Nat.eq_dec q i) as [->|Hqi].
      * rewrite nth_error_upd_eq in Hz by exact H1. injection Hz as <-. rewrite <- Hsame in *. destruct (low i); [apply (convex_pair_upper A x y c)|apply (convex_pair_lower B x y c)]; auto.
      * rewrite nth_error_upd_neq in Hz by auto. now apply HP.
  - rewrite masked_upd by (rewrite upd_length; exact H2). rewrite masked_upd by exact H1. cbn [Nat.add].
    rewrite N. rewrite <- Hsame. fold x y. destruct (low i); [rewrite cancel_pair|rewrite !Rplus_0_r]; exact HS1.
  - rewrite masked_upd by (rewrite upd_length; exact H2). rewrite masked_upd by exact H1. cbn [Nat.add].
    rewrite N. rewrite <- Hsame. fold x y. destruct (low i); cbn [negb]; [rewrite !Rplus_0_r|rewrite cancel_pair]; exact HS2.
Qed.

(** C34. Dispersion. *)
Lemma sq_drop (u d c : R) : 0 <= c <= 1 -> u <= d -> forall z, u - 2 * c * (1 - c) * (z * z) <= d.
Proof. intros H H1 z. assert (0 <= z * z) by apply Rle_0_sqr. assert (0 <= c * (1 - c)) by nra. nra. Qed.
Definition sumsq (xs : list R) : R := Rsum (map (fun x => x * x) xs).
Lemma sumsq_upd l i (x : R) : (i < length l)%nat -> sumsq (upd l i x) = sumsq l - nth i l 0 * nth i l 0 + x * x.
Proof.
  unfold sumsq. revert i. induction l as [|y l IH]; intros [|i] H; cbn [length] in H; try lia; cbn [upd nth map]; rewrite !Rsum_cons; [lra|].
  rewrite IH by lia. lra.
Qed.

Theorem C34_encounter_dispersion (threshold mu : R) i j (xs xs' : list R) x y :
  @meets RA threshold mu i j xs xs' -> i <> j -> nth_error xs i = Some x -> nth_error xs j = Some y ->
  Rabs (x - y) < threshold ->
  sumsq xs' = sumsq xs - 2 * mu * (1 - mu) * ((x - y) * (x - y)) /\
  exists x' y', nth_error xs' i = Some x' /\ nth_error xs' j = Some y' /\ x' - y' = (1 - 2 * mu) * (x - y).
Proof.
  intros HM Hne Ex Ey Hd.
  assert (H1 : (i < length xs)%nat) by (apply nth_error_Some; congruence).
  assert (H2 : (j < length xs)%nat) by (apply nth_error_Some; congruence).
  destruct HM as (HL & HK & HM). specialize (HM x y Ex Ey). cbv zeta in HM. cbn [flt fabs fsub fmul fadd RA F] in HM, HL, HK.
  destruct (Rltb_spec (Rabs (x - y)) threshold) as [_|Hge]; [|contradiction]. destruct HM as [HM _]. destruct (HM Hne) as [E1 E2].
  split; [|do 2 eexists; split; [exact E1|]; split; [exact E2|]; lra].
  assert (Eq : xs' = upd (upd xs i (x - mu * (x - y))) j (y + mu * (x - y))).
  { apply list_ext. intros k. destruct (Nat.eq_dec k j) as [->|Hkj].
    - rewrite nth_error_upd_eq; [exact E2|rewrite upd_length; exact H2].
    - rewrite nth_error_upd_neq by auto. destruct (Nat.eq_dec k i) as [->|Hki].
      + rewrite nth_error_upd_eq by exact H1. exact E1.
      + rewrite nth_error_upd_neq by auto. now apply HK. }
  rewrite Eq. rewrite sumsq_upd by (rewrite upd_length; exact H2). rewrite sumsq_upd by exact H1. rewrite nth_upd_neq by auto.
  rewrite (nth_error_nth xs i 0 Ex), (nth_error_nth xs j 0 Ey). lra.
Qed.

Theorem C34_dispersion_never_grows (g : Rng RA) (m : deffuant (simple_agent R)) s k :
  sample_ok g -> int_ok g -> @can_select RA _ (use_network m) (df_net m) -> 0 <= mu m <= 1 ->
  exists m' s', simple_run g k m s = Ok (m', s') /\ sumsq (@opinions RA (df_net m')) <= sumsq (@opinions RA (df_net m)).
Proof.
  intros Hs Hi Hc Hmu.
  apply (run_invariant RA g m s k (fun xs => sumsq xs <= sumsq (@opinions RA (df_net m))) Hs Hi Hc); [|apply Rle_refl].
  intros xs i j xs' HL H1 H2 HP HM. destruct (meets_cases _ _ _ _ _ _ H1 H2 HM) as [->|(Hne & Hd & _)]; auto.
  destruct (C34_encounter_dispersion _ _ i j xs xs' _ _ HM Hne (nth_error_nth' _ 0 H1) (nth_error_nth' _ 0 H2) Hd) as [E _].
  rewrite E. apply sq_drop; auto.
Qed.

(** A concrete run that meets the hypotheses of C29-C34: four agents, two groups, real pairs. *)
Definition df4 (use : bool) : deffuant (simple_agent (F RA)) :=
  mkDeffuant (a:=RA) (base_ctor None) (1/2) (1/4) use
    (mkNet [mkSimple 0; mkSimple (1/4); mkSimple 1; mkSimple (5/4)] [[1]; [0;2]; [3]; [2;0]]%nat [[0]; [0;0]; [0]; [0;0]] Incoming).
Example C29_C34_instance (use : bool) : sample_ok (const_rng (a:=RA) 0 0) /\ int_ok (const_rng (a:=RA) 0 0) /\
  @can_select RA _ (use_network (df4 use)) (df_net (df4 use)) /\ (0 < n_agents (df_net (df4 use)))%nat /\ 0 <= mu (df4 use) <= 1 /\
  homophily_threshold (df4 use) <= 1 - 1/4 /\ separated (fun i => (i <? 2)%nat) (1/4) 1 (@opinions RA (df_net (df4 use))) /\
  Forall (fun x => 0 <= x <= 5/4) (@opinions RA (df_net (df4 use))).
Proof.
  split; [apply const_rng_sample_ok|]. split; [apply const_rng_int_ok|]. split.
  - destruct use; [right|now left]. split; [|split; [cbn; lia|]].
    + repeat split; auto.
      * intros [|[|[|[|i]]]] H; cbn in *; auto; lia.
      * intros [|[|[|[|[|i]]]]] j H; cbn in *; intuition lia.
    + intros [|[|[|[|i]]]] H; cbn in *; lia.
  - split; [cbn; lia|]. split; [cbn; lra|]. split; [cbn; lra|]. split; [|repeat constructor; cbn; lra].
    intros [|[|[|[|i]]]] x H; cbn in H; try (injection H as <-); cbn; try lra. destruct i; discriminate.
Qed.
(** ... and the first iteration of it really changes opinions. *)
Example C29_effective : exists m' s', simple_iteration (const_rng (a:=RA) 0 0) (df4 false) tt = Ok (m', s') /\
  @opinions RA (df_net m') <> @opinions RA (df_net (df4 false)).
Proof.
  unfold simple_iteration, deffuant_iteration, encounter. cbn -[Rltb Rabs Rplus Rminus Rmult Rdiv].
  unfold update_rule_simple. 
  repeat (cbn -[Rltb Rabs Rplus Rminus Rmult Rdiv];
    match goal with |- context [Rltb (Rabs ?d) ?t] =>
      destruct (Rltb_spec (Rabs d) t) as [_|H]; [|exfalso; apply H; unfold Rabs; destruct (Rcase_abs _); lra] end).
  cbn -[Rltb Rabs Rplus Rminus Rmult Rdiv]. do 2 eexists. split; [reflexivity|]. cbn. intros H. injection H. intros. lra.
Qed.
Print Assumptions C29_iteration_is_n_encounters.
Print Assumptions C30_selection.
Print Assumptions C30_selection_without_network.
Print Assumptions C30_selection_with_network.
Print Assumptions C30_no_neighbour_is_ub.
Print Assumptions C31_mean_conserved.
Print Assumptions C32_range_kept_real.
Print Assumptions C33_groups_never_interact.
Print Assumptions C34_encounter_dispersion.
Print Assumptions C34_dispersion_never_grows.

(** ** Doubles *)
From Verif Require Import PFloat.
From Flocq Require Import IEEE754.BinarySingleNaN.

(** C32. IEEE binary64 arithmetic, mu <= 1/2: finite opinions stay finite and inside any interval that
    contains them all. *)
Theorem C32_range_kept_float (g : Rng FA) (m : deffuant (simple_agent Arith64.float)) s k (lo hi : R) :
  sample_ok g -> int_ok g -> @can_select FA _ (use_network m) (df_net m) ->
  is_finite (mu m) = true -> 0 <= B2R (mu m) <= 1/2 ->
  Forall (fun x : Arith64.float => is_finite x = true /\ lo <= B2R x <= hi) (@opinions FA (df_net m)) ->
  exists m' s', simple_run g k m s = Ok (m', s') /\
    Forall (fun x : Arith64.float => is_finite x = true /\ lo <= B2R x <= hi) (@opinions FA (df_net m')).
Proof.
  intros Hs Hi Hc Fm Hm HF.
  apply (run_invariant FA g m s k (Forall (fun x : Arith64.float => is_finite x = true /\ lo <= B2R x <= hi)) Hs Hi Hc); auto.
  intros xs i j xs' HL H1 H2 HP (M1 & M2 & M3).
  pose proof (nth_error_nth' xs (f0 FA) H1) as Ex. pose proof (nth_error_nth' xs (f0 FA) H2) as Ey.
  set (x := nth i xs (f0 FA)) in *. set (y := nth j xs (f0 FA)) in *.
  specialize (M3 x y Ex Ey). cbv zeta in M3. rewrite Forall_nth_error in HP.
  destruct (HP i x Ex) as [Fx Bx]. destruct (HP j y Ey) as [Fy By].
  match type of M3 with (if ?b then _ else _) => destruct b eqn:T end.
  2: { subst xs'. now apply Forall_nth_error. }
  destruct M3 as [N1 N2].
  assert (Hmin : lo <= Rmin (B2R (x : Arith64.float)) (B2R (y : Arith64.float))) by (apply Rmin_glb; apply Bx || apply By).
  assert (Hmax : Rmax (B2R (x : Arith64.float)) (B2R (y : Arith64.float)) <= hi) by (apply Rmax_lub; apply Bx || apply By).
  apply Forall_nth_error. intros q z Hz.
  destruct (Nat.eq_dec i j) as [Ee|Hne].
  - destruct (Nat.eq_dec q i) as [->|Hq].
    + specialize (N2 Ee). pose proof (eq_trans (eq_sym N2) Hz) as Q. injection Q as <-. assert (Exy : y = x) by (unfold x, y; now rewrite Ee). rewrite Exy.
      destruct (self_float x (mu m) x Fx Fm) as [S1 S2]. split; [exact S1|].
      match goal with |- lo <= ?b <= hi => replace b with (B2R (x : Arith64.float)) by (symmetry; exact S2) end. exact Bx.
    + apply (HP q z). etransitivity; [symmetry; apply M2; congruence|exact Hz].
  - destruct (N1 Hne) as [E1 E2]. destruct (hull_float x y (mu m) (homophily_threshold m) Fx Fy Fm Hm T) as (G1 & G2 & G3 & G4).
    destruct (Nat.eq_dec q i) as [->|Hqi]; [|destruct (Nat.eq_dec q j) as [->|Hqj]].
    + pose proof (eq_trans (eq_sym E1) Hz) as Q. injection Q as <-. split; [exact G1|].
      split; [eapply Rle_trans; [exact Hmin|apply G3]|eapply Rle_trans; [apply G3|exact Hmax]].
    + pose proof (eq_trans (eq_sym E2) Hz) as Q. injection Q as <-. split; [exact G2|].
      split; [eapply Rle_trans; [exact Hmin|apply G4]|eapply Rle_trans; [apply G4|exact Hmax]].
    + apply (HP q z). etransitivity; [symmetry; apply M2; congruence|exact Hz].
Qed.

(** mu = 1: rounding breaks it. Opinions 1 and 2^-60 with threshold 2: after one iteration an opinion
    is 0, below both initial ones. *)
Definition tiny : Arith64.float := fdiv FA (f1 FA) (b64_of_Z (2 ^ 60)).
Definition df_round : deffuant (simple_agent (F FA)) :=
  mkDeffuant (a:=FA) (base_ctor None) (b64_of_Z 2) (f1 FA) false
    (mkNet [mkSimple (f1 FA); mkSimple tiny] [[]; []] [[]; []] Incoming).
Theorem C32_rounding_breaks_hull_refuted :
  exists m' s', simple_iteration (const_rng (a:=FA) tiny tiny) df_round tt = Ok (m', s') /\
    Forall (fun x => fle FA tiny x = true /\ fle FA x (f1 FA) = true) (@opinions FA (df_net df_round)) /\
    exists x, In x (@opinions FA (df_net m')) /\ flt FA x tiny = true.
Proof.
  assert (B : match simple_iteration (const_rng (a:=FA) tiny tiny) df_round tt with
              | Ok (m', _) => match @opinions FA (df_net m') with [_; x] => flt FA x tiny | _ => false end
              | _ => false end = true) by (vm_compute; reflexivity).
  destruct (simple_iteration (const_rng (a:=FA) tiny tiny) df_round tt) as [[m' s']| | |]; try discriminate.
  exists m', s'. split; [reflexivity|]. split.
  - repeat constructor; vm_compute; reflexivity.
  - destruct (@opinions FA (df_net m')) as [|u [|x [|]]]; try discriminate. exists x. split; [cbn; auto|exact B].
Qed.

Definition df_half : deffuant (simple_agent (F FA)) :=
  mkDeffuant (a:=FA) (base_ctor None) (b64_of_Z 2) (fdiv FA (f1 FA) (b64_of_Z 2)) false
    (mkNet [mkSimple (f1 FA); mkSimple tiny] [[]; []] [[]; []] Incoming).
Lemma half_value : B2R (fdiv FA (f1 FA) (b64_of_Z 2) : Arith64.float) = 1/2.
Proof.
  rewrite <- SF2R_B2SF. replace (B2SF _) with (SpecFloat.S754_finite false 4503599627370496 (-53)) by (vm_compute; reflexivity).
  unfold SF2R, Defs.F2R. cbn. lra.
Qed.
Example C32_float_instance : sample_ok (const_rng (a:=FA) tiny tiny) /\ int_ok (const_rng (a:=FA) tiny tiny) /\
  @can_select FA _ (use_network df_half) (df_net df_half) /\ is_finite (mu df_half) = true /\ 0 <= B2R (mu df_half : Arith64.float) <= 1/2 /\
  Forall (fun x : Arith64.float => is_finite x = true) (@opinions FA (df_net df_half)).
Proof.
  split; [apply const_rng_sample_ok|]. split; [apply const_rng_int_ok|]. split; [now left|]. split; [reflexivity|].
  split; [cbn [mu df_half]; rewrite half_value; lra|]. repeat constructor; reflexivity.
Qed.
Print Assumptions C32_range_kept_float.
Print Assumptions C32_rounding_breaks_hull_refuted.

(** C37. The constructor with use_network. *)
Local Open Scope nat_scope.
Lemma lattice_can_select (a : Arith) A (d : A) L (w : F a) G : (Z.of_nat L * Z.of_nat L <= 2 ^ 53)%Z ->
  generate_square_lattice d L w = Ok G -> can_select (a:=a) true G /\ n_agents G = L * L.
Proof.
  intros HL E. destruct (C18_lattice A (F a) d L w) as (G' & E' & Hw & Hn & Hd & Hrow); [nia|].
  rewrite E in E'. injection E' as <-. split; auto. right. split; auto. split; [rewrite Hn; lia|].
  intros i Hi. rewrite Hn in Hi. assert (L <> 0) by (intros ->; cbn in Hi; lia).
  pose proof (Nat.div_mod i L ltac:(auto)) as Di.
  destruct (Hrow (i mod L) (i / L)) as [R1 _]; [now apply Nat.mod_upper_bound|apply Nat.div_lt_upper_bound; lia|].
  replace (i mod L + L * (i / L)) with i in R1 by lia. unfold get_neighbours in R1. apply vget_ok in R1.
  rewrite (nth_error_nth _ _ [] R1). cbn [length]. lia.
Qed.

Theorem C37_square_population (a : Arith) A (d : A) max thr mu0 (net : network A (F a)) L :
  n_agents net = L * L -> (Z.of_nat (n_agents net) <= 2 ^ 53)%Z ->
  exists m G, deffuant_ctor d max thr mu0 true net = Ok m /\
    generate_square_lattice d L (f0 a) = Ok G /\ df_net m = G /\ n_agents (df_net m) = n_agents net /\
    can_select (use_network m) (df_net m) /\ use_network m = true /\
    homophily_threshold m = thr /\ mu m = mu0 /\ max_iterations (df_base m) = option_map (fun l => (l mod 2 ^ 64)%Z) max /\ iterations (df_base m) = 0%Z.
Proof.
  intros Hn HB. unfold deffuant_ctor. rewrite Hn. rewrite sqrt_size_square by lia.
  rewrite to_size_t_small by nia. rewrite Nat2Z.inj_mul, Z.eqb_refl. cbn [negb].
  destruct (C18_lattice A (F a) d L (f0 a)) as (G & E & _); [nia|]. rewrite E. cbn [bind].
  destruct (lattice_can_select a A d L (f0 a) G) as [C1 C2]; [nia|auto|].
  do 2 eexists. split; [reflexivity|]. split; [reflexivity|]. cbn. auto 10.
Qed.

Theorem C37_non_square_throws (a : Arith) A (d : A) max thr mu0 (net : network A (F a)) :
  (forall L, n_agents net <> L * L) -> (Z.of_nat (n_agents net) <= 2 ^ 53)%Z ->
  deffuant_ctor d max thr mu0 true net = Throw ExRuntime.
Proof.
  intros Hn HB. unfold deffuant_ctor. pose proof (sqrt_size_bound _ HB) as B. set (e := sqrt_size (n_agents net)) in *.
  rewrite to_size_t_small by nia. destruct (Z.eqb_spec (Z.of_nat e * Z.of_nat e) (Z.of_nat (n_agents net))) as [E|N]; auto.
  exfalso. apply (Hn e). lia.
Qed.

Theorem C37_without_network (a : Arith) A (d : A) max thr mu0 (net : network A (F a)) :
  exists m, deffuant_ctor d max thr mu0 false net = Ok m /\ df_net m = net /\ can_select (use_network m) (df_net m).
Proof. eexists. split; [reflexivity|]. split; [reflexivity|]. now left. Qed.

Example C37_instance : exists m, deffuant_ctor (a:=RA) (mkSimple 0%R) None 1%R 1%R true
  (mkNet (repeat (mkSimple 5%R) 9) (repeat [] 9) (repeat [] 9) Outgoing) = Ok m /\ get_neighbours (df_net m) 0 = Ok [2;1;6;3].
Proof.
  destruct (C37_square_population RA _ (mkSimple 0%R) None 1%R 1%R
    (mkNet (repeat (mkSimple 5%R) 9) (repeat [] 9) (repeat [] 9) Outgoing) 3) as (m & G & E & EG & En & _); [reflexivity|cbn; lia|].
  exists m. split; auto. rewrite En. vm_compute in EG. injection EG as <-. reflexivity.
Qed.
Example C37_instance2 : deffuant_ctor (a:=RA) (mkSimple 0%R) None 1%R 1%R true
  (mkNet (repeat (mkSimple 5%R) 8) (repeat [] 8) (repeat [] 8) Outgoing) = Throw ExRuntime.
Proof. apply C37_non_square_throws; [|cbn; lia]. intros L H. cbn in H. destruct L as [|[|[|[|L]]]]; cbn in H; lia. Qed.
Print Assumptions C37_square_population.
Print Assumptions C37_non_square_throws.
Print Assumptions C37_without_network.
