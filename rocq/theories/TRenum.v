(** Property theorem C105: the numbering of the agents of a mean-field model is irrelevant (exact arithmetic). *)
From Verif Require Import Base BaseFacts Arith64 RFacts MRandom SRandom PRandom WRandom MDist MNetwork SNetwork PNetwork PNetwork2
  MAgents MDeGroot MActivity SActivity PActStep PActNet PActIter PActMean PActIter2 PActThm PActSym PActReal PActMean2 SRelax PRelax TMean SEquiv TEquiv SRenum PRenum.
From Coq Require Import Reals Lra Psatz Permutation.
From Verif Require Import WRelax TNetGen TRelax PInertia3 TFinite.
Local Open Scope R_scope.

Section Renumber.
Context (lm : Libm RA) (g : Rng RA) (q : PQ RA).
Hypothesis Hq : pq_bag q.

Lemma agents_from_columns (l l' : list (activity_agent (F RA))) i i' : nth_error (map a_opinion l) i = nth_error (map a_opinion l') i' ->
  nth_error (map a_activity l) i = nth_error (map a_activity l') i' -> nth_error (map a_reluctance l) i = nth_error (map a_reluctance l') i' ->
  nth_error l i = nth_error l' i'.
Proof.
  rewrite !nth_error_map. destruct (nth_error l i) as [[o c r]|], (nth_error l' i') as [[o' c' r']|]; cbn; try discriminate; auto. congruence.
Qed.
Lemma nth_same (xs xs' : list (F RA)) i i' : (i < length xs)%nat -> (i' < length xs')%nat -> nth i xs (f0 RA) = nth i' xs' (f0 RA) -> nth_error xs i = nth_error xs' i'.
Proof. intros H H' E. now rewrite (nth_error_nth' xs (f0 RA) H), (nth_error_nth' xs' (f0 RA) H'), E. Qed.

Lemma activity_step (md md' : ad_model (a:=RA) (activity_agent (F RA))) sg s1 s1' : ad_ready md -> ad_ready md' ->
  mean_weights (ad_set md) = true -> renumbering (n_agents (ad_net md)) sg -> ad_renumbered sg md md' ->
  exists mk mk', activity_iteration (a:=RA) lm g q md s1 = Ok (mk, s1) /\ activity_iteration (a:=RA) lm g q md' s1' = Ok (mk', s1') /\
    ad_ready mk /\ ad_ready mk' /\ ad_set mk = ad_set md /\ n_agents (ad_net mk) = n_agents (ad_net md) /\ ad_renumbered sg mk mk' /\
    forall i, (i < n_agents (ad_net md))%nat -> Permutation (row (ad_net mk') (sg i)) (map (fun p : nat * R => (sg (fst p), snd p)) (row (ad_net mk) i)).
Proof using Hq.
  intros Hr Hr' Hw Hsg (N & B & S & HA).
  destruct (activity_iteration_ok (a:=RA) lm g q md s1 Hq Hr) as (mk & s2 & h & cpl & E1 & E2 & E3 & E4 & E5 & E6 & E7 & E8 & E9 & E10 & E11 & E12 & E13).
  destruct (activity_iteration_ok (a:=RA) lm g q md' s1' Hq Hr') as (mk' & s2' & h' & cpl' & F1 & F2 & F3 & F4 & F5 & F6 & F7 & F8 & F9 & F10 & F11 & F12 & F13).
  pose proof Hr as (R1 & R2 & R3 & R4 & R5 & R6). pose proof Hr' as (Q1 & Q2 & Q3 & Q4 & Q5 & Q6).
  assert (Hw' : mean_weights (ad_set md') = true) by (destruct S as ((bm & ba & bo & bh & ->) & _); exact Hw).
  destruct (R6 Hw) as [R7 R8]. destruct (Q6 Hw') as [Q7 Q8].
  apply update_mean_network in E3 as (M & _ & ->); auto. apply update_mean_network in F3 as (M' & _ & ->); auto.
  set (n := n_agents (ad_net md)) in *. set (l := agents (ad_net md)) in *. set (l' := agents (ad_net md')) in *.
  assert (Ll : length l = n) by reflexivity. assert (Ll' : length l' = n) by exact N.
  set (xs := map a_opinion l) in *. set (xs' := map a_opinion l') in *.
  assert (T0 : turned_list n sg xs xs').
  { split; [unfold xs; now rewrite map_length|]. split; [unfold xs'; now rewrite map_length|]. intros i Hi.
    assert (En : nth_error xs' (sg i) = nth_error xs i) by (unfold xs, xs'; now rewrite !nth_error_map, (HA i Hi)).
    destruct (nth_error xs i) as [v|] eqn:Ev; [|apply nth_error_None in Ev; unfold xs in Ev; rewrite map_length in Ev; lia].
    now rewrite (nth_error_nth _ _ 0 Ev), (nth_error_nth _ _ 0 En). }
  assert (Edt : dt (ad_set md') = dt (ad_set md)) by (destruct S as ((bm & ba & bo & bh & ->) & _); reflexivity).
  assert (T1 := turned_rk4 n sg Hsg _ _ (dt (ad_set md)) xs xs'
     (fun ys ys' T => field_turned lm (activity_ops (F RA)) n sg (ad_set md) (ad_set md') l l' Hsg S Ll Ll' HA h h' M M' E9 F9 ys ys' T) T0).
  rewrite <- Edt in T1 at 2. set (zs := rk4_step _ _ xs) in *. set (zs' := rk4_step _ _ xs') in *.
  assert (Nk : n_agents (ad_net mk) = n). { unfold n_agents. rewrite <- (map_length a_activity (agents (ad_net mk))), E12. apply map_length. }
  assert (Nk' : n_agents (ad_net mk') = n). { unfold n_agents. rewrite <- (map_length a_activity (agents (ad_net mk'))), F12, map_length. exact N. }
  exists mk, mk'. split; [exact E1|]. split; [exact F1|]. split; [exact E2|]. split; [exact F2|]. split; [exact E4|]. split; [exact Nk|]. split.
  - split; [now rewrite Nk|]. split; [now rewrite E5, F5, B|]. split; [now rewrite Nk, E4, F4|]. rewrite Nk. intros i Hi. pose proof (proj1 Hsg i Hi) as Hs.
    apply agents_from_columns.
    + rewrite E11, F11. unfold with_bots. destruct T1 as (L1 & L2 & T1).
      assert (Hs2 : (sg i < @length (F RA) zs')%nat) by (eapply Nat.lt_le_trans; [exact Hs|apply Nat.eq_le_incl; symmetry; exact L2]).
      assert (Hi2 : (i < @length (F RA) zs)%nat) by (eapply Nat.lt_le_trans; [exact Hi|apply Nat.eq_le_incl; symmetry; exact L1]).
      apply nth_same; [rewrite map_length, seq_length; exact Hs2|rewrite map_length, seq_length; exact Hi2|].
      eapply eq_trans; [apply nth_map_seq; exact Hs2|]. eapply eq_trans; [|symmetry; apply nth_map_seq; exact Hi2]. cbv beta.
      rewrite (same_bots n sg (ad_set md) (ad_set md') S), (bot_number n sg (ad_set md) (ad_set md') S i Hi).
      destruct (Nat.ltb_spec i (n_bots (ad_set md))) as [Hb|Hb]; [|apply (T1 i Hi)]. apply (proj2 (proj2 S) i Hb).
    + rewrite E12, F12, !nth_error_map. fold l l'. now rewrite (HA i Hi).
    + rewrite E13, F13, !nth_error_map. fold l l'. now rewrite (HA i Hi).
  - intros i Hi. assert (Er : row (ad_net mk) i = row h i) by (unfold row; now rewrite E6, E7).
    assert (Er' : row (ad_net mk') (sg i) = row h' (sg i)) by (unfold row; now rewrite F6, F7). rewrite Er, Er'.
    exact (rows_turned lm (activity_ops (F RA)) n sg (ad_set md) (ad_set md') l l' Hsg S Ll Ll' HA h h' M M' i Hi).
Qed.

(** Renumbering the agents of a mean-field activity-driven model (and its bots with them) renumbers every later state, and the
    contact network of every iteration. The generator plays no role. *)
Theorem C105_activity k : forall (md md' : ad_model (a:=RA) (activity_agent (F RA))) sg s s', ad_ready md -> ad_ready md' ->
  mean_weights (ad_set md) = true -> renumbering (n_agents (ad_net md)) sg -> ad_renumbered sg md md' ->
  exists mk mk', activity_run (a:=RA) lm g q k md s = Ok (mk, s) /\ activity_run (a:=RA) lm g q k md' s' = Ok (mk', s') /\
    ad_renumbered sg mk mk' /\ (base_finished (ad_base mk') = base_finished (ad_base mk)) /\
    ((0 < k)%nat -> forall i, (i < n_agents (ad_net md))%nat ->
       Permutation (row (ad_net mk') (sg i)) (map (fun p : nat * R => (sg (fst p), snd p)) (row (ad_net mk) i))).
Proof using Hq.
  induction k as [|k IH]; intros md md' sg s s' Hr Hr' Hw Hsg H.
  - exists md, md'. split; auto. split; auto. split; auto. split; [|lia]. destruct H as (_ & -> & _). reflexivity.
  - destruct (activity_step md md' sg s s' Hr Hr' Hw Hsg H) as (m1 & m1' & E & E' & R1 & R1' & S1 & N1 & H1 & P1).
    destruct (IH m1 m1' sg s s' R1 R1') as (mk & mk' & G & G' & HK & HB & P); auto; [now rewrite S1|now rewrite N1|].
    exists mk, mk'. cbn [activity_run]. rewrite E, E'. cbn [bind]. split; auto. split; auto. split; auto. split; auto.
    intros _ i Hi. destruct k as [|k]; [|apply P; [lia|now rewrite N1]].
    cbn in G, G'. assert (m1 = mk) by congruence. assert (m1' = mk') by congruence. subst. now apply P1.
Qed.

Lemma inertial_step_turned (im im' : inertial_model (a:=RA)) sg s1 s1' : ad_ready (im_ad im) -> ad_ready (im_ad im') ->
  mean_weights (ad_set (im_ad im)) = true -> friction_coefficient im' = friction_coefficient im ->
  renumbering (n_agents (ad_net (im_ad im))) sg -> ad_renumbered sg (im_ad im) (im_ad im') ->
  exists mk mk', inertial_iteration (a:=RA) lm g q im s1 = Ok (mk, s1) /\ inertial_iteration (a:=RA) lm g q im' s1' = Ok (mk', s1') /\
    ad_ready (im_ad mk) /\ ad_ready (im_ad mk') /\ ad_set (im_ad mk) = ad_set (im_ad im) /\ friction_coefficient mk' = friction_coefficient mk /\
    n_agents (ad_net (im_ad mk)) = n_agents (ad_net (im_ad im)) /\ ad_renumbered sg (im_ad mk) (im_ad mk') /\
    forall i, (i < n_agents (ad_net (im_ad im)))%nat ->
      Permutation (row (ad_net (im_ad mk')) (sg i)) (map (fun p : nat * R => (sg (fst p), snd p)) (row (ad_net (im_ad mk)) i)).
Proof using Hq.
  intros Hr Hr' Hw Hf Hsg (N & B & S & HA). set (md := im_ad im) in *. set (md' := im_ad im') in *.
  destruct (inertial_iteration_ok (a:=RA) lm g q im s1 Hq Hr)
    as (mk & s2 & h & cpl & E1 & E2 & E3 & E4 & E5 & E6 & E7 & E8 & E9 & E10 & E11 & E12 & ps & X1 & X2 & X3).
  destruct (inertial_iteration_ok (a:=RA) lm g q im' s1' Hq Hr')
    as (mk' & s2' & h' & cpl' & F1 & F2 & F3 & F4 & F5 & F6 & F7 & F8 & F9 & F10 & F11 & F12 & ps' & Y1 & Y2 & Y3).
  fold md in E3, E4, E6, E10, E12, X1, X2, X3. fold md' in F3, F4, F6, F10, F12, Y1, Y2, Y3.
  pose proof Hr as (R1 & R2 & R3 & R4 & R5 & R6). pose proof Hr' as (Q1 & Q2 & Q3 & Q4 & Q5 & Q6).
  assert (Hw' : mean_weights (ad_set md') = true) by (destruct S as ((bm & ba & bo & bh & ->) & _); exact Hw).
  destruct (R6 Hw) as [R7 R8]. destruct (Q6 Hw') as [Q7 Q8].
  apply update_mean_network in E3 as (M & _ & ->); auto. apply update_mean_network in F3 as (M' & _ & ->); auto.
  set (n := n_agents (ad_net md)) in *. set (l := agents (ad_net md)) in *. set (l' := agents (ad_net md')) in *.
  assert (Ll : length l = n) by reflexivity. assert (Ll' : length l' = n) by exact N.
  set (xs := map i_opinion l) in *. set (xs' := map i_opinion l') in *.
  assert (T0 : turned_list n sg xs xs').
  { split; [unfold xs; now rewrite map_length|]. split; [unfold xs'; now rewrite map_length|]. intros i Hi.
    assert (En : nth_error xs' (sg i) = nth_error xs i) by (unfold xs, xs'; now rewrite !nth_error_map, (HA i Hi)).
    destruct (nth_error xs i) as [v|] eqn:Ev; [|apply nth_error_None in Ev; unfold xs in Ev; rewrite map_length in Ev; lia].
    now rewrite (nth_error_nth _ _ 0 Ev), (nth_error_nth _ _ 0 En). }
  assert (Edt : dt (ad_set md') = dt (ad_set md)) by (destruct S as ((bm & ba & bo & bh & ->) & _); reflexivity).
  pose proof (fun ys ys' T => field_turned lm (inertial_ops (F RA)) n sg (ad_set md) (ad_set md') l l' Hsg S Ll Ll' HA h h' M M' E10 F10 ys ys' T) as TF.
  pose proof (TF _ _ T0) as T1.
  assert (T2 : turned_list n sg ps ps').
  { split; [exact (eq_trans X1 (proj1 T0))|]. split; [exact (eq_trans Y1 (proj1 (proj2 T0)))|]. intros i Hi. pose proof (HA i Hi) as Hx. fold l l' in Hx.
    destruct (nth_error l i) as [x|] eqn:Ex; [|apply nth_error_None in Ex; lia].
    specialize (X2 i x Ex). specialize (Y2 (sg i) x Hx). rewrite Edt, Hf in Y2. pose proof (proj2 (proj2 T1) i Hi) as T1i.
    apply nth_error_nth with (d := 0) in X2. apply nth_error_nth with (d := 0) in Y2.
    refine (eq_trans Y2 (eq_trans _ (eq_sym X2))). f_equal. exact T1i. }
  pose proof (TF _ _ T2) as T3.
  exists mk, mk'. split; [exact E1|]. split; [exact F1|]. split; [exact E2|]. split; [exact F2|]. split; [exact E4|].
  split; [now rewrite E5, F5|]. split; [exact E12|]. split.
  - split; [unfold n_agents; rewrite F12, E12; exact N|]. split; [now rewrite E6, F6, B|].
    assert (Nk : n_agents (ad_net (im_ad mk)) = n) by exact E12. rewrite Nk. split; [now rewrite E4, F4|]. intros i Hi. pose proof (HA i Hi) as Hx. fold l l' in Hx.
    destruct (nth_error l i) as [x|] eqn:Ex; [|apply nth_error_None in Ex; lia].
    rewrite (X3 i x Ex), (Y3 (sg i) x Hx). f_equal.
    rewrite (same_bots n sg (ad_set md) (ad_set md') S), (bot_number n sg (ad_set md) (ad_set md') S i Hi), Edt, Hf.
    pose proof (proj2 (proj2 T1) i Hi) as T1i. pose proof (proj2 (proj2 T2) i Hi) as T2i. pose proof (proj2 (proj2 T3) i Hi) as T3i.
    assert (C : forall (o o' v v' : R), o' = o -> v' = v -> mkInertial o' (i_activity x) (i_reluctance x) v' = mkInertial o (i_activity x) (i_reluctance x) v) by (intros; subst; reflexivity).
    apply C.
    + destruct (Nat.ltb_spec i (n_bots (ad_set md))) as [Hb|Hb]; [apply (proj2 (proj2 S) i Hb)|exact T2i].
    + refine (f_equal2 (fun d d' => verlet_velocity (a:=RA) (dt (ad_set md)) (friction_coefficient im) (i_velocity x) d d') T1i T3i).
  - intros i Hi. assert (Er : row (ad_net (im_ad mk)) i = row h i) by (unfold row; now rewrite E7, E8).
    assert (Er' : row (ad_net (im_ad mk')) (sg i) = row h' (sg i)) by (unfold row; now rewrite F7, F8). rewrite Er, Er'.
    exact (rows_turned lm (inertial_ops (F RA)) n sg (ad_set md) (ad_set md') l l' Hsg S Ll Ll' HA h h' M M' i Hi).
Qed.

(** The same for the inertial model. *)
Theorem C105_inertial k : forall (im im' : inertial_model (a:=RA)) sg s s', ad_ready (im_ad im) -> ad_ready (im_ad im') ->
  mean_weights (ad_set (im_ad im)) = true -> friction_coefficient im' = friction_coefficient im ->
  renumbering (n_agents (ad_net (im_ad im))) sg -> ad_renumbered sg (im_ad im) (im_ad im') ->
  exists mk mk', inertial_run (a:=RA) lm g q k im s = Ok (mk, s) /\ inertial_run (a:=RA) lm g q k im' s' = Ok (mk', s') /\
    ad_renumbered sg (im_ad mk) (im_ad mk') /\ (base_finished (ad_base (im_ad mk')) = base_finished (ad_base (im_ad mk))) /\
    ((0 < k)%nat -> forall i, (i < n_agents (ad_net (im_ad im)))%nat ->
       Permutation (row (ad_net (im_ad mk')) (sg i)) (map (fun p : nat * R => (sg (fst p), snd p)) (row (ad_net (im_ad mk)) i))).
Proof using Hq.
  induction k as [|k IH]; intros im im' sg s s' Hr Hr' Hw Hf Hsg H.
  - exists im, im'. split; auto. split; auto. split; auto. split; [|lia]. destruct H as (_ & -> & _). reflexivity.
  - destruct (inertial_step_turned im im' sg s s' Hr Hr' Hw Hf Hsg H) as (m1 & m1' & E & E' & R1 & R1' & S1 & F1 & N1 & H1 & P1).
    destruct (IH m1 m1' sg s s' R1 R1') as (mk & mk' & G & G' & HK & HB & P); auto; [now rewrite S1|now rewrite N1|].
    exists mk, mk'. cbn [inertial_run]. rewrite E, E'. cbn [bind]. split; auto. split; auto. split; auto. split; auto.
    intros _ i Hi. destruct k as [|k]; [|apply P; [lia|now rewrite N1]].
    cbn in G, G'. assert (m1 = mk) by congruence. assert (m1' = mk') by congruence. subst. now apply P1.
Qed.
End Renumber.

(** Three agents, the first two bots that are exchanged. *)
Definition two_bots (first : bool) : ad_model (a:=RA) (activity_agent (F RA)) :=
  complete_model (field_settings (1/10) 1 (3/2) (1/2) 2 2 (if first then [1%Z; 2%Z] else [2%Z; 1%Z]) (if first then [2; -3] else [-3; 2]))
    (if first then [mkActivity 2 1 1; mkActivity (-3) 1 2; mkActivity 5 (1/2) (3/2)] else [mkActivity (-3) 1 2; mkActivity 2 1 1; mkActivity 5 (1/2) (3/2)]).
Lemma two_bots_ready b : ad_ready (two_bots b).
Proof. destruct b; (apply complete_ready; [apply field_fit; cbn; try lia; repeat constructor; lia|cbn; lia|cbn; lia]). Qed.
Definition exchange (i : nat) : nat := match i with 0%nat => 1%nat | 1%nat => 0%nat | _ => i end.
Lemma exchange_renumbering : renumbering 3 exchange.
Proof. split; [intros [|[|[|i]]] H; cbn; lia|intros [|[|[|i]]] [|[|[|j]]] Hi Hj E; cbn in *; try lia; try discriminate; try reflexivity]. Qed.
Lemma two_bots_renumbered : ad_renumbered exchange (two_bots true) (two_bots false).
Proof.
  split; [reflexivity|]. split; [reflexivity|]. split.
  - split; [do 4 eexists; reflexivity|]. split.
    + intros [|[|[|i]]] H; cbn in *; lia.
    + intros [|[|i]] H; [| |cbn in H; lia]; split; [reflexivity|split; reflexivity|reflexivity|split; reflexivity].
  - intros [|[|[|i]]] H; [reflexivity..|cbn in H; lia].
Qed.
Example C105_activity_instance k : exists mk mk',
  activity_run (a:=RA) real_libm mid_rng (list_pq RA) k (two_bots true) 0%nat = Ok (mk, 0%nat) /\
  activity_run (a:=RA) real_libm mid_rng (list_pq RA) k (two_bots false) 7%nat = Ok (mk', 7%nat) /\
  nth_error (agents (ad_net mk')) 2 = nth_error (agents (ad_net mk)) 2.
Proof.
  destruct (C105_activity real_libm mid_rng (list_pq RA) (list_pq_bag RA) k (two_bots true) (two_bots false) exchange 0%nat 7%nat (two_bots_ready _) (two_bots_ready _) eq_refl
    exchange_renumbering two_bots_renumbered) as (mk & mk' & E & E' & (N & _ & _ & H) & _).
  exists mk, mk'. split; [exact E|]. split; [exact E'|]. destruct (Nat.lt_ge_cases 2 (n_agents (ad_net mk))) as [L|L]; [exact (H 2%nat L)|].
  rewrite (proj2 (nth_error_None (agents (ad_net mk)) 2) L). apply nth_error_None. unfold n_agents in *. lia.
Qed.

(** Three inertial agents, renumbered cyclically. *)
Definition three_inertial (first : bool) : inertial_model (a:=RA) :=
  complete_inertial (field_settings (1/10) 2 (3/2) (1/2) 2 0 [] []) (1/5)
    (if first then [mkInertial 2 1 1 (1/2); mkInertial (-3) 1 2 0; mkInertial 5 (1/2) (3/2) (-1)]
     else [mkInertial 5 (1/2) (3/2) (-1); mkInertial 2 1 1 (1/2); mkInertial (-3) 1 2 0]).
Lemma three_inertial_ready b : ad_ready (im_ad (three_inertial b)).
Proof. destruct b; (apply complete_inertial_ready; [apply field_fit; cbn; try lia; constructor|cbn; lia|cbn; lia]). Qed.
Lemma three_inertial_renumbered : ad_renumbered turn (im_ad (three_inertial true)) (im_ad (three_inertial false)).
Proof.
  split; [reflexivity|]. split; [reflexivity|]. split.
  - split; [do 4 eexists; reflexivity|]. split; [intros i _; cbn; lia|intros i H; cbn in H; lia].
  - intros [|[|[|i]]] H; [reflexivity..|cbn in H; lia].
Qed.
Example C105_inertial_instance k : exists mk mk',
  inertial_run (a:=RA) real_libm mid_rng (list_pq RA) k (three_inertial true) 0%nat = Ok (mk, 0%nat) /\
  inertial_run (a:=RA) real_libm mid_rng (list_pq RA) k (three_inertial false) 7%nat = Ok (mk', 7%nat) /\
  ad_renumbered turn (im_ad mk) (im_ad mk').
Proof.
  destruct (C105_inertial real_libm mid_rng (list_pq RA) (list_pq_bag RA) k (three_inertial true) (three_inertial false) turn 0%nat 7%nat (three_inertial_ready _) (three_inertial_ready _) eq_refl
    eq_refl turn_renumbering three_inertial_renumbered) as (mk & mk' & E & E' & H & _).
  exists mk, mk'. auto.
Qed.

(** ** In doubles the order of summation matters *)
Definition dust : F FA := Nat.iter 60 (fmul FA (fdiv FA (f1 FA) (b64_of_Z 2))) (f1 FA).
Definition four_people (first : bool) : double_model :=
  mkAD (a:=FA) (A:=activity_agent (F FA)) (mkBase None 0) (lively_settings quarter true 1)
    (mkNet (map (fun x => mkActivity x (f1 FA) (f1 FA))
         (if first then [b64_of_Z 0; f1 FA; dust; fopp FA (f1 FA)] else [b64_of_Z 0; f1 FA; fopp FA (f1 FA); dust]))
       (repeat (seq 0 4) 4) (repeat (repeat (b64_of_Z 0) 4) 4) Incoming)
    (repeat (repeat (b64_of_Z 0) 4) 4).
Lemma four_people_ready b : ad_ready (four_people b).
Proof.
  split.
  { split; [destruct b; reflexivity|]. split; [destruct b; reflexivity|]. split.
    - intros [|[|[|[|i]]]] Hi; [reflexivity..|destruct b; cbn in Hi; lia].
    - intros i j Hj. assert (Ej : In j (seq 0 4)). { change (In j (nth i (repeat (seq 0 4) 4) [])) in Hj. destruct i as [|[|[|[|i]]]]; [exact Hj..|]. destruct i; destruct Hj. }
      apply in_seq in Ej. destruct b; cbn in *; lia. }
  split; [reflexivity|]. split.
  { destruct b; (split; [cbn; lia|]; split; [cbn; lia|]; split; [cbn; lia|]; split; [cbn; lia|]; intros i Hi; cbn in Hi; lia). }
  destruct b; (split; [cbn; lia|]; split; [cbn; lia|]; intros _; split; [split; reflexivity|reflexivity]).
Qed.
Definition last_two (i : nat) : nat := match i with 2%nat => 3%nat | 3%nat => 2%nat | _ => i end.
Lemma last_two_renumbering : renumbering 4 last_two.
Proof.
  split; [intros [|[|[|[|i]]]] H; cbn; lia|].
  intros [|[|[|[|i]]]] [|[|[|[|j]]]] Hi Hj E; cbn in *; try lia; try discriminate; reflexivity.
Qed.
Definition first_agents_differ {S : Type} (r r' : res (double_model * S)) : bool :=
  match r, r' with
  | Ok (m, _), Ok (m', _) => match agents (ad_net m), agents (ad_net m') with x :: _, y :: _ => negb (feq FA (a_opinion x) (a_opinion y)) | _, _ => false end
  | _, _ => false end.
Lemma first_agents_differ_ok {S : Type} (r r' : res (double_model * S)) : first_agents_differ r r' = true ->
  exists m m' s s' x l y l', r = Ok (m, s) /\ r' = Ok (m', s') /\ agents (ad_net m) = x :: l /\ agents (ad_net m') = y :: l' /\ feq FA (a_opinion x) (a_opinion y) = false.
Proof.
  destruct r as [[m s]| | |], r' as [[m' s']| | |]; try discriminate. cbn [first_agents_differ]. intros H.
  destruct (agents (ad_net m)) as [|x l] eqn:E1; [discriminate|]. destruct (agents (ad_net m')) as [|y l'] eqn:E2; [discriminate|].
  exists m, m', s, s', x, l, y, l'. do 4 (split; auto). now apply Bool.negb_true_iff.
Qed.

(** "The same holds in double arithmetic" is false: the influences are added in the order of the numbers. *)
Theorem C105_double_refuted :
  ~ (forall (lm : Libm FA) (g : Rng FA) (q : PQ FA) (md md' mk mk' : double_model) sg s1 s1' s2 s2', pq_bag q -> ad_ready md -> ad_ready md' ->
       mean_weights (ad_set md) = true -> renumbering (n_agents (ad_net md)) sg -> ad_renumbered sg md md' ->
       activity_iteration lm g q md s1 = Ok (mk, s2) -> activity_iteration lm g q md' s1' = Ok (mk', s2') ->
       forall i x y, nth_error (agents (ad_net mk)) i = Some x -> nth_error (agents (ad_net mk')) (sg i) = Some y -> feq FA (a_opinion x) (a_opinion y) = true).
Proof.
  intros Claim. set (it b := activity_iteration cut_libm (const_rng (a:=FA) (b64_of_Z 0) (b64_of_Z 0)) (list_pq FA) (four_people b) tt).
  assert (B : first_agents_differ (it true) (it false) = true) by (vm_compute; reflexivity).
  destruct (first_agents_differ_ok _ _ B) as (m & m' & s & s' & x & l & y & l' & E & E' & O & O' & D).
  enough (feq FA (a_opinion x) (a_opinion y) = true) by congruence.
  apply (Claim cut_libm (const_rng (a:=FA) (b64_of_Z 0) (b64_of_Z 0)) (list_pq FA) (four_people true) (four_people false) m m' last_two tt tt s s' (list_pq_bag FA)
    (four_people_ready _) (four_people_ready _) eq_refl last_two_renumbering) with (i := 0%nat); [|exact E|exact E'|now rewrite O|now rewrite O'].
  split; [reflexivity|]. split; [reflexivity|]. split.
  - split; [do 4 eexists; reflexivity|]. split; [intros i _; cbn; lia|intros i H; cbn in H; lia].
  - intros [|[|[|[|i]]]] H; [reflexivity..|cbn in H; lia].
Qed.
Print Assumptions C105_activity.
Print Assumptions C105_inertial.
Print Assumptions C105_double_refuted.
