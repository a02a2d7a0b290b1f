(** Property theorems C70-C71: Deffuant runs on real-valued opinions converge. *)
From Verif Require Import Base BaseFacts Arith64 RFacts MRandom SRandom PRandom WRandom MNetwork SNetwork PNetwork2 MAgents MDeGroot SDeGroot MDeffuant SDeffuant SConverge PDeffuant PConverge PConverge2 TDeffuant.
From Coq Require Import Reals Lra Psatz.

(** Every run has a history, so the theorems below speak about every run. *)
Theorem C70_history (a : Arith) (g : Rng a) (m : deffuant (simple_agent (F a))) s :
  sample_ok g -> int_ok g -> can_select (use_network m) (df_net m) -> 0 < n_agents (df_net m) ->
  exists X ps, history g m s X ps.
Proof. exact (history_exists g m s). Qed.

Local Open Scope R_scope.
Lemma history_steps (g : Rng RA) (m : deffuant (simple_agent R)) s (X : nat -> list R) ps :
  sample_ok g -> int_ok g -> @can_select RA _ (use_network m) (df_net m) -> (0 < n_agents (df_net m))%nat -> history (a:=RA) g m s X ps ->
  (forall t, length (X t) = n_agents (df_net m)) /\
  (forall t, X (S t) = X t \/
    ((fst (ps t) < n_agents (df_net m))%nat /\ (snd (ps t) < n_agents (df_net m))%nat /\ fst (ps t) <> snd (ps t) /\
     X (S t) = mix (mu m) (fst (ps t)) (snd (ps t)) (X t))).
Proof.
  intros Hs Hi Hc Hn H. pose proof (history_valid g m s X ps Hs Hi Hc Hn H) as HV. split; [intros t; apply HV|].
  intros t. destruct (HV t) as (V1 & V2 & V3). change (list (F RA)) with (list R) in *. change (F RA) with R in *. destruct H as (_ & _ & Hm & _).
  destruct (meets_cases _ _ _ _ (X t) (X (S t)) (eq_ind_r (fun z => (fst (ps t) < z)%nat) V1 V3) (eq_ind_r (fun z => (snd (ps t) < z)%nat) V2 V3) (Hm t)) as [E|(Hne & _ & E)]; [now left|].
  right. split; [exact V1|]. split; [exact V2|]. split; [exact Hne|]. exact E.
Qed.

(** C70. Only a bounded number of encounters of a run can take place over an opinion gap of at least
    [d]: at most (sum of the squared distances of the initial opinions from any point [o]) divided by
    2 mu (1 - mu) d^2, however long the run. *)
Theorem C70_large_encounters (g : Rng RA) (m : deffuant (simple_agent R)) s (X : nat -> list R) ps (o d : R) (ts : list nat) :
  sample_ok g -> int_ok g -> @can_select RA _ (use_network m) (df_net m) -> (0 < n_agents (df_net m))%nat -> 0 <= mu m <= 1 -> 0 <= d ->
  history (a:=RA) g m s X ps -> NoDup ts ->
  (forall t, In t ts -> fst (ps t) <> snd (ps t) /\ d <= Rabs (nth (fst (ps t)) (X t) 0 - nth (snd (ps t)) (X t) 0) < homophily_threshold m) ->
  INR (length ts) * (2 * mu m * (1 - mu m) * d ^ 2) <= Rsum (map (fun x => (x - o) ^ 2) (X 0%nat)).
Proof.
  intros Hs Hi Hc Hn Hmu Hd H HN Hts. destruct (history_steps g m s X ps Hs Hi Hc Hn H) as [HL HS].
  set (W := fun t => total (fun x => (x - o) ^ 2) (X t)).
  assert (HW : forall t, fst (ps t) <> snd (ps t) -> (fst (ps t) < n_agents (df_net m))%nat -> (snd (ps t) < n_agents (df_net m))%nat ->
     X (S t) = mix (mu m) (fst (ps t)) (snd (ps t)) (X t) ->
     W t - W (S t) = 2 * mu m * (1 - mu m) * (nth (fst (ps t)) (X t) 0 - nth (snd (ps t)) (X t) 0) ^ 2).
  { intros t H1 H2 H3 E. unfold W. rewrite E. rewrite total_mix by (rewrite ?HL; auto). ring. }
  apply (few_drops W); auto.
  - intros t. destruct (HS t) as [E|(H1 & H2 & H3 & E)]; [unfold W; rewrite E; lra|]. specialize (HW t H3 H1 H2 E).
    assert (0 <= 2 * mu m * (1 - mu m) * (nth (fst (ps t)) (X t) 0 - nth (snd (ps t)) (X t) 0) ^ 2); [|lra].
    apply Rmult_le_pos; [nra|apply pow2_ge_0].
  - intros t. apply total_nonneg. intros x. apply pow2_ge_0.
  - intros t Ht. destruct (Hts t Ht) as (Hne & Hd1 & Hd2). destruct (history_valid g m s X ps Hs Hi Hc Hn H t) as (V1 & V2 & V3).
    assert (E : X (S t) = mix (mu m) (fst (ps t)) (snd (ps t)) (X t)).
    { destruct H as (_ & _ & Hm & _). destruct (meets_cases _ _ _ _ (X t) (X (S t)) (eq_ind_r (fun z => (fst (ps t) < z)%nat) V1 V3) (eq_ind_r (fun z => (snd (ps t) < z)%nat) V2 V3) (Hm t)) as [E|(_ & _ & E)]; [|exact E].
      destruct (Hm t) as (_ & _ & HM). specialize (HM _ _ (nth_error_nth' (X t) 0 (eq_ind_r (fun z => (fst (ps t) < z)%nat) V1 V3)) (nth_error_nth' (X t) 0 (eq_ind_r (fun z => (snd (ps t) < z)%nat) V2 V3))).
      cbv zeta in HM. cbn [flt fabs fsub fmul fadd RA F] in HM.
      match type of HM with context [Rltb ?u ?v] => destruct (Rltb_spec u v) as [_|Hge]; [|exfalso; apply Hge; exact Hd2] end.
      destruct HM as [HM _]. destruct (HM Hne) as [E1 E2]. apply (nth_ext _ _ 0 0); [now rewrite mix_length, !HL|].
      intros k Hk. rewrite nth_mix by (rewrite ?HL; auto). destruct (Nat.eq_dec k (fst (ps t))) as [->|Hk1]; [exact (nth_error_nth _ _ 0 E1)|].
      destruct (Nat.eq_dec k (snd (ps t))) as [->|Hk2]; [exact (nth_error_nth _ _ 0 E2)|]. now rewrite E. }
    rewrite (HW t Hne V1 V2 E). apply Rmult_le_compat_l; [nra|]. rewrite <- (pow2_abs (_ - _)). apply pow_incr. lra.
Qed.

(** C71. The opinions converge, whatever the generator does: every agent has a limit; the limits have
    the initial sum; two agents with different limits eventually only meet beyond the threshold; so two agents that keep
    meeting end up agreeing or at least a threshold apart. *)
Theorem C71_converges (g : Rng RA) (m : deffuant (simple_agent R)) s (X : nat -> list R) ps :
  sample_ok g -> int_ok g -> @can_select RA _ (use_network m) (df_net m) -> (0 < n_agents (df_net m))%nat -> 0 < mu m < 1 ->
  history (a:=RA) g m s X ps ->
  exists L : list R, length L = n_agents (df_net m) /\
    (forall i, (i < n_agents (df_net m))%nat -> Un_cv (fun t => nth i (X t) 0) (nth i L 0)) /\
    Rsum L = Rsum (X 0%nat) /\
    (forall i j, (i < n_agents (df_net m))%nat -> (j < n_agents (df_net m))%nat -> nth i L 0 <> nth j L 0 ->
       exists T, forall t, (T <= t)%nat -> pair_meets ps i j t -> homophily_threshold m <= Rabs (nth i (X t) 0 - nth j (X t) 0)) /\
    (forall i j, (i < n_agents (df_net m))%nat -> (j < n_agents (df_net m))%nat ->
       (forall N, exists t, (N <= t)%nat /\ pair_meets ps i j t) ->
       nth i L 0 = nth j L 0 \/ homophily_threshold m <= Rabs (nth i L 0 - nth j L 0)).
Proof.
  intros Hs Hi Hc Hn Hmu H. destruct (history_steps g m s X ps Hs Hi Hc Hn H) as [HL HS].
  destruct (choose_limits (fun i t => nth i (X t) 0) (n_agents (df_net m)) (opinions_cv X _ _ ps HL Hmu HS)) as (L & HLL & HC).
  exists L. split; [exact HLL|]. split; [exact HC|].
  assert (HD : forall i j, (i < n_agents (df_net m))%nat -> (j < n_agents (df_net m))%nat -> nth i L 0 <> nth j L 0 ->
       exists T, forall t, (T <= t)%nat -> pair_meets ps i j t -> homophily_threshold m <= Rabs (nth i (X t) 0 - nth j (X t) 0)).
  { intros i j Hi1 Hj1 Hne.
    destruct (mixing_cv X _ _ ps HL Hmu HS i j _ _ (HC i Hi1) (HC j Hj1) Hne) as [T1 HT1].
    assert (Hd : 0 < Rabs (nth i L 0 - nth j L 0)) by (apply Rabs_pos_lt; lra).
    destruct (HC i Hi1 (Rabs (nth i L 0 - nth j L 0) / 2) ltac:(lra)) as [T2 HT2].
    destruct (HC j Hj1 (Rabs (nth i L 0 - nth j L 0) / 2) ltac:(lra)) as [T3 HT3].
    exists (Nat.max T1 (Nat.max T2 T3)). intros t Ht Hp. specialize (HT1 t ltac:(lia) Hp). specialize (HT2 t ltac:(lia)). specialize (HT3 t ltac:(lia)).
    assert (Hx : nth i (X t) 0 <> nth j (X t) 0).
    { intros E. unfold R_dist in HT2, HT3. rewrite E in HT2.
      pose proof (Rabs_triang (nth i L 0 - nth j (X t) 0) (nth j (X t) 0 - nth j L 0)) as A. rewrite (Rabs_minus_sym (nth i L 0)) in A.
      replace (nth i L 0 - nth j (X t) 0 + (nth j (X t) 0 - nth j L 0)) with (nth i L 0 - nth j L 0) in A by ring. lra. }
    apply Rnot_lt_le. intros Hlt. destruct H as (_ & _ & Hm & _). specialize (Hm t).
    assert (Hlti : (i < length (X t))%nat) by (rewrite HL; exact Hi1). assert (Hltj : (j < length (X t))%nat) by (rewrite HL; exact Hj1).
    assert (Hij : i <> j) by (intros ->; now apply Hx).
    destruct Hm as (_ & _ & Hm). pose proof (nth_error_nth' (X t) 0 Hlti) as Ei. pose proof (nth_error_nth' (X t) 0 Hltj) as Ej.
    destruct Hp as [E|E]; rewrite E in Hm; cbn [fst snd] in Hm.
    - specialize (Hm _ _ Ei Ej). cbv zeta in Hm. cbn [flt fabs fsub fmul fadd RA F] in Hm.
      match type of Hm with context [Rltb ?u ?v] => destruct (Rltb_spec u v) as [_|Hge]; [|exfalso; apply Hge; exact Hlt] end.
      destruct Hm as [Hm _]. destruct (Hm Hij) as [E1 _]. rewrite HT1 in E1. rewrite Ei in E1. injection E1 as E1. revert E1. 
      generalize dependent (nth i (X t) 0). generalize (nth j (X t) 0). intros y x Hx. intros. assert (mu m * (x - y) = 0) by (clear - E1; nra). apply Rmult_integral in H. destruct H; lra.
    - specialize (Hm _ _ Ej Ei). cbv zeta in Hm. cbn [flt fabs fsub fmul fadd RA F] in Hm. rewrite Rabs_minus_sym in Hlt.
      match type of Hm with context [Rltb ?u ?v] => destruct (Rltb_spec u v) as [_|Hge]; [|exfalso; apply Hge; exact Hlt] end.
      destruct Hm as [Hm _]. destruct (Hm (not_eq_sym Hij)) as [E1 _]. rewrite HT1 in E1. rewrite Ej in E1. injection E1 as E1. revert E1. 
      generalize dependent (nth i (X t) 0). generalize (nth j (X t) 0). intros y x Hx. intros. assert (mu m * (y - x) = 0) by (clear - E1; nra). apply Rmult_integral in H. destruct H; lra. }
  split; [|split; [exact HD|]].
  - assert (HSum : Un_cv (fun t => Rsum (X t)) (Rsum L)) by (apply sum_limit; [intros t; congruence|intros i Hi1; apply HC; lia]).
    assert (Hconst : forall t, Rsum (X t) = Rsum (X 0%nat)).
    { induction t as [|t IH]; auto. rewrite <- IH. destruct (HS t) as [->|(H1 & H2 & H3 & ->)]; auto.
      pose proof (total_mix (fun x => x) (mu m) _ _ (X t) ltac:(rewrite HL; exact H1) ltac:(rewrite HL; exact H2) H3) as E. unfold total in E. rewrite !map_id in E. rewrite E. ring. }
    apply (UL_sequence _ _ _ HSum). intros eps He. exists 0%nat. intros t _. rewrite Hconst. unfold R_dist. rewrite Rminus_eq_0, Rabs_R0. exact He.
  - intros i j Hi1 Hj1 HI. destruct (Req_dec (nth i L 0) (nth j L 0)) as [E|Hne]; [now left|]. right.
    destruct (HD i j Hi1 Hj1 Hne) as [T HT]. apply (cv_gap _ _ _ _ _ (HC i Hi1) (HC j Hj1)). intros N.
    destruct (HI (Nat.max N T)) as (t & Ht & Hp). exists t. split; [lia|]. apply HT; auto; lia.
Qed.

(** The same, seen after each iteration. *)
Theorem C71_run_converges (g : Rng RA) (m : deffuant (simple_agent R)) s :
  sample_ok g -> int_ok g -> @can_select RA _ (use_network m) (df_net m) -> 0 < mu m < 1 ->
  exists (O : nat -> list R) (L : list R),
    (forall k, exists m' s', simple_run g k m s = Ok (m', s') /\ @opinions RA (df_net m') = O k) /\
    length L = n_agents (df_net m) /\
    (forall i, (i < n_agents (df_net m))%nat -> Un_cv (fun k => nth i (O k) 0) (nth i L 0)) /\
    Rsum L = Rsum (@opinions RA (df_net m)).
Proof.
  intros Hs Hi Hc Hmu. destruct (Nat.eq_dec (n_agents (df_net m)) 0) as [E0|Hn].
  - exists (fun _ => @opinions RA (df_net m)), nil. assert (Eo : @opinions RA (df_net m) = nil).
    { apply length_zero_iff_nil. unfold opinions. rewrite map_length. exact E0. }
    split; [|split; [symmetry; exact E0|split; [intros i Hi1; lia|now rewrite Eo]]].
    intros k. destruct (C31_mean_conserved g m s k Hs Hi Hc) as (m' & s' & E & _ & El). exists m', s'. split; auto.
    apply (f_equal (@length R)) in Eo. cbn [length] in Eo. assert (E2 : @opinions RA (df_net m') = nil) by (apply length_zero_iff_nil; etransitivity; [exact El|exact Eo]).
    apply length_zero_iff_nil in Eo. etransitivity; [exact E2|symmetry; exact Eo].
  - destruct (C70_history RA g m s Hs Hi Hc (proj1 (Nat.neq_0_lt_0 _) Hn)) as (X & ps & H).
    destruct (C71_converges g m s X ps Hs Hi Hc (proj1 (Nat.neq_0_lt_0 _) Hn) Hmu H) as (L & HL & HC & HS & _).
    exists (fun k => X (k * n_agents (df_net m))%nat), L. destruct H as (H0 & _ & _ & HR). split; [exact HR|]. split; [exact HL|].
    split; [|rewrite HS; f_equal; exact H0]. intros i Hi1. apply (cv_subseq (fun t => nth i (X t) 0)); [lia|]. now apply HC.
Qed.

(** The bound mu < 1 is needed, although the validation accepts mu = 1: then two agents swap their opinions for ever. *)
Definition swap3 : deffuant (simple_agent (F RA)) :=
  mkDeffuant (a:=RA) (base_ctor None) (1/2) 1 false
    (mkNet (mkSimple 0 :: mkSimple (1/4) :: mkSimple 1 :: nil) ((1 :: nil) :: (0 :: nil) :: (0 :: nil) :: nil)%nat ((0 :: nil) :: (0 :: nil) :: (0 :: nil) :: nil) Incoming).
Lemma swap_step (x y z : R) (xs' : list R) : Rabs (x - y) < 1/2 -> @meets RA (1/2) 1 0 1 (x :: y :: z :: nil) xs' -> xs' = y :: x :: z :: nil.
Proof.
  intros Hd HM. destruct (meets_cases (1/2) 1 0 1 (x :: y :: z :: nil) xs' ltac:(cbn; lia) ltac:(cbn; lia) HM) as [E|(_ & _ & E)].
  - destruct HM as (_ & _ & HM). specialize (HM x y eq_refl eq_refl). cbv zeta in HM. cbn [flt fabs fsub fmul fadd RA F] in HM.
    destruct (Rltb_spec (Rabs (x - y)) (1/2)) as [_|Hge]; [|contradiction]. destruct HM as [HM _]. destruct (HM ltac:(lia)) as [E1 E2].
    subst xs'. cbn in E1, E2. injection E1 as E1. injection E2 as E2. assert (x = y) by lra. subst. reflexivity.
  - subst xs'. cbn [nth upd]. f_equal; [lra|]. f_equal. lra.
Qed.
Theorem C71_mu_one_refuted : exists (g : Rng RA) (m : deffuant (simple_agent R)) s,
  sample_ok g /\ int_ok g /\ @can_select RA _ (use_network m) (df_net m) /\ mu m = 1 /\ (0 < n_agents (df_net m))%nat /\
  forall O : nat -> list R, (forall k, exists m' s', simple_run g k m s = Ok (m', s') /\ @opinions RA (df_net m') = O k) ->
    ~ exists l, Un_cv (fun k => nth 0 (O k) 0) l.
Proof.
  exists (const_rng (a:=RA) 0 0), swap3, tt.
  assert (Hs : sample_ok (const_rng (a:=RA) 0 0)) by apply const_rng_sample_ok.
  assert (Hi : int_ok (const_rng (a:=RA) 0 0)) by apply const_rng_int_ok.
  assert (Hc : @can_select RA _ (use_network swap3) (df_net swap3)) by now left.
  split; [exact Hs|]. split; [exact Hi|]. split; [exact Hc|]. split; [reflexivity|]. split; [cbn; lia|].
  intros O HO [l Hl]. destruct (C70_history RA (const_rng (a:=RA) 0 0) swap3 tt Hs Hi Hc ltac:(cbn; lia)) as (X & ps & H0 & (st & _ & Hst) & HM & HR).
  assert (Hps : forall t, ps t = (0, 1)%nat).
  { intros t. specialize (Hst t). cbn in Hst. destruct (ps t) as [i j]. cbn [fst snd] in Hst. injection Hst as <- <-. reflexivity. }
  assert (HA : forall t, X (2 * t)%nat = 0 :: 1/4 :: 1 :: nil /\ X (2 * t + 1)%nat = 1/4 :: 0 :: 1 :: nil).
  { assert (Hd : Rabs (0 - 1/4) < 1/2) by (apply Rabs_def1; lra). assert (Hd2 : Rabs (1/4 - 0) < 1/2) by (apply Rabs_def1; lra).
    assert (HX : forall t, X t = 0 :: 1/4 :: 1 :: nil -> X (S t) = 1/4 :: 0 :: 1 :: nil).
    { intros t E. specialize (HM t). rewrite Hps in HM. cbn [fst snd] in HM. rewrite E in HM. exact (swap_step _ _ _ _ Hd HM). }
    assert (HY : forall t, X t = 1/4 :: 0 :: 1 :: nil -> X (S t) = 0 :: 1/4 :: 1 :: nil).
    { intros t E. specialize (HM t). rewrite Hps in HM. cbn [fst snd] in HM. rewrite E in HM. exact (swap_step _ _ _ _ Hd2 HM). }
    induction t as [|t [IH1 IH2]]; [split; [exact H0|apply (HX 0%nat); exact H0]|].
    replace (2 * S t)%nat with (S (2 * t + 1)) by lia. replace (S (2 * t + 1) + 1)%nat with (S (S (2 * t + 1))) by lia.
    specialize (HY _ IH2). split; auto. }
  assert (HO0 : forall k, O k = X (k * 3)%nat).
  { intros k. destruct (HO k) as (m1 & s1 & E1 & <-). destruct (HR k) as (m2 & s2 & E2 & E3). rewrite E1 in E2. injection E2 as <- <-. exact E3. }
  destruct (Hl (1/8) ltac:(lra)) as [N HN].
  assert (B0 : nth 0 (O (2 * N)%nat) 0 = 0). { rewrite HO0. replace (2 * N * 3)%nat with (2 * (3 * N))%nat by lia. now rewrite (proj1 (HA _)). }
  assert (B1 : nth 0 (O (2 * N + 1)%nat) 0 = 1/4). { rewrite HO0. replace ((2 * N + 1) * 3)%nat with (2 * (3 * N + 1) + 1)%nat by lia. now rewrite (proj2 (HA _)). }
  pose proof (HN (2 * N)%nat ltac:(lia)) as C0. pose proof (HN (2 * N + 1)%nat ltac:(lia)) as C1. rewrite B0 in C0. rewrite B1 in C1.
  unfold R_dist in C0, C1. apply Rabs_def2 in C0. apply Rabs_def2 in C1. lra.
Qed.

(** The hypotheses of C70 and C71 are met by a run that moves opinions (C29_effective). *)
Example C70_C71_instance (use : bool) : sample_ok (const_rng (a:=RA) 0 0) /\ int_ok (const_rng (a:=RA) 0 0) /\
  @can_select RA _ (use_network (df4 use)) (df_net (df4 use)) /\ (0 < n_agents (df_net (df4 use)))%nat /\ 0 < mu (df4 use) < 1 /\
  exists X ps, history (a:=RA) (const_rng (a:=RA) 0 0) (df4 use) tt X ps.
Proof.
  destruct (C29_C34_instance use) as (H1 & H2 & H3 & H4 & _). split; [exact H1|]. split; [exact H2|]. split; [exact H3|]. split; [exact H4|].
  split; [cbn; lra|]. exact (C70_history RA (const_rng (a:=RA) 0 0) (df4 use) tt H1 H2 H3 H4).
Qed.
(** A large encounter that C70_large_encounters counts: the first one of [df4 false]. *)
Example C70_large_instance (X : nat -> list R) ps : history (a:=RA) (const_rng (a:=RA) 0 0) (df4 false) tt X ps ->
  forall t, In t (0%nat :: nil) -> fst (ps t) <> snd (ps t) /\ 1/4 <= Rabs (nth (fst (ps t)) (X t) 0 - nth (snd (ps t)) (X t) 0) < homophily_threshold (df4 false).
Proof.
  intros (H0 & (st & _ & Hst) & _) t [<-|[]]. specialize (Hst 0%nat). cbn in Hst. destruct (ps 0%nat) as [i j]. cbn [fst snd] in *. injection Hst as <- <-.
  split; [lia|]. rewrite H0. cbn -[Rabs]. unfold Rabs. destruct (Rcase_abs _); lra.
Qed.
Print Assumptions C70_history.
Print Assumptions C70_large_encounters.
Print Assumptions C71_converges.
Print Assumptions C71_run_converges.
Print Assumptions C71_mu_one_refuted.
