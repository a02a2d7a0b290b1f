(** One iteration of the inertial model, agent by agent, and following a run. *)
From Verif Require Import Base BaseFacts Arith64 RFacts MRandom SRandom PRandom MDist MNetwork SNetwork PNetwork PNetwork2
  MAgents MDeGroot MActivity SActivity PActStep PActNet PActIter PActMean PActIter2 PActThm PActSym PActReal SRelax PRelax SInertia PInertia.
From Coq Require Import Reals Lra Psatz.
Local Open Scope R_scope.

Section Step.
Context (lm : Libm RA) (g : Rng RA) (q : PQ RA).
Hypothesis Htanh : forall x : R, ltanh RA lm x = tanh x.
Hypothesis Hq : pq_bag q.
Variables (im im' : inertial) (s s' : rst g).
Hypothesis Hr : ad_ready (im_ad im).
Hypothesis E : inertial_iteration (a:=RA) lm g q im s = Ok (im', s').
Let n := n_agents (ad_net (im_ad im)).
Let h := dt (ad_set (im_ad im)).
Let mu := friction_coefficient im.
Let G i y := social_pull (ad_set (im_ad im)) (inertial_reluctance im i) (row (ad_net (im_ad im')) i) y.

Lemma inertial_frame : ad_ready (im_ad im') /\ ad_set (im_ad im') = ad_set (im_ad im) /\ friction_coefficient im' = friction_coefficient im /\
  n_agents (ad_net (im_ad im')) = n /\ (forall i, (i < n)%nat -> inertial_reluctance im' i = inertial_reluctance im i) /\
  (forall i, (i < n)%nat -> Forall (fun p => (fst p < n)%nat) (row (ad_net (im_ad im')) i)) /\
  map i_activity (agents (ad_net (im_ad im'))) = map i_activity (agents (ad_net (im_ad im))).
Proof using Hq Hr E.
  destruct (inertial_iteration_ok (a:=RA) lm g q im s Hq Hr)
    as (im2 & s2 & h0 & cpl & E1 & E2 & E3 & E4 & E5 & E6 & E7 & E8 & E9 & E10 & E11 & E12 & xs' & X1 & X2 & X3).
  rewrite E in E1. assert (im2 = im') by congruence. subst im2. clear E1.
  split; [exact E2|]. split; [exact E4|]. split; [exact E5|]. split; [exact E12|]. split.
  - intros i Hi. destruct (nth_error (agents (ad_net (im_ad im))) i) as [x|] eqn:Ex; [|apply nth_error_None in Ex; unfold n, n_agents in Hi; lia].
    unfold inertial_reluctance. transitivity (i_reluctance x); [|symmetry].
    + apply nth_error_nth. rewrite nth_error_map, (X3 i x Ex). reflexivity.
    + apply nth_error_nth. rewrite nth_error_map, Ex. reflexivity.
  - split.
  2:{ assert (L : length (map i_activity (agents (ad_net (im_ad im')))) = length (map i_activity (agents (ad_net (im_ad im))))) by (now rewrite !map_length).
    apply (nth_ext _ _ (0 : R) 0 L). intros i Hi0. assert (Hi : (i < length (agents (ad_net (im_ad im))))%nat) by (eapply Nat.lt_le_trans; [exact Hi0|]; apply Nat.eq_le_incl; exact (eq_trans (map_length _ _) E12)).
    destruct (nth_error (agents (ad_net (im_ad im))) i) as [x|] eqn:Ex; [|apply nth_error_None in Ex; lia].
    transitivity (i_activity x); [|symmetry].
    + apply nth_error_nth. rewrite nth_error_map, (X3 i x Ex). reflexivity.
    + apply nth_error_nth. rewrite nth_error_map, Ex. reflexivity. }
    intros i Hi. assert (Er : row (ad_net (im_ad im')) i = row h0 i) by (unfold row; now rewrite E7, E8). rewrite Er.
    destruct E11 as (W1 & W2 & W3 & W4). assert (Hn : n_agents h0 = n) by (unfold n, n_agents; now rewrite E10).
    apply Forall_forall. intros [j w] Hp. unfold row in Hp. apply in_combine_l in Hp. cbn [fst].
    rewrite <- Hn. rewrite <- Hn in Hi. eapply W4; eauto.
Qed.

(** [moved] are the positions at which the new forces are evaluated, before bots are put back. *)
Lemma inertial_components : 1 + mu * h / 2 <> 0 -> exists moved : nat -> R, forall i, (i < n)%nat ->
  verlet h mu (G i (position_of im)) (G i moved) (position_of im i) (velocity_of im i) (moved i) (velocity_of im' i) /\
  ((n_bots (ad_set (im_ad im)) <= i)%nat -> position_of im' i = moved i) /\
  ((i < n_bots (ad_set (im_ad im)))%nat -> position_of im' i = nth i (bot_opinion (ad_set (im_ad im))) 0).
Proof using Htanh Hq Hr E.
  intros Hz. destruct (inertial_iteration_ok (a:=RA) lm g q im s Hq Hr)
    as (im2 & s2 & h0 & cpl & E1 & E2 & E3 & E4 & E5 & E6 & E7 & E8 & E9 & E10 & E11 & E12 & xs' & X1 & X2 & X3).
  rewrite E in E1. assert (im2 = im') by congruence. subst im2. clear E1.
  set (f := field (a:=RA) lm (inertial_ops (F RA)) (ad_set (im_ad im)) h0) in *.
  set (xs := map i_opinion (agents (ad_net (im_ad im)))) in *.
  assert (Hn : n_agents h0 = n) by (unfold n, n_agents; now rewrite E10).
  assert (Hf : forall i (ys : list R), (i < n)%nat -> @nth R i (f ys) 0 = G i (fun j => @nth R j ys 0) - @nth R i ys 0).
  { intros i ys Hi. unfold f, field. eapply eq_trans; [apply nth_map_seq; rewrite Hn; exact Hi|]. cbv beta.
    destruct (nth_error (agents h0) i) as [x|] eqn:Ex.
    2:{ apply nth_error_None in Ex. unfold n_agents in Hn. lia. }
    eapply eq_trans; [apply slope_R|]. unfold G, social_pull.
    assert (Er : row (ad_net (im_ad im')) i = row h0 i) by (unfold row; now rewrite E7, E8). rewrite Er.
    assert (Erl : inertial_reluctance im i = get_reluctance (inertial_ops (F RA)) x).
    { unfold inertial_reluctance. apply nth_error_nth. rewrite nth_error_map, <- E10, Ex. reflexivity. }
    rewrite Erl. rewrite Rplus_comm. unfold Rminus. f_equal. f_equal. f_equal. apply map_ext. intros p. f_equal. apply Htanh. }
  exists (fun i => @nth R i xs' 0). intros i Hi.
  destruct (nth_error (agents (ad_net (im_ad im))) i) as [x|] eqn:Ex; [|apply nth_error_None in Ex; unfold n, n_agents in Hi; lia].
  assert (Px : position_of im i = i_opinion x) by (apply nth_error_nth; rewrite nth_error_map, Ex; reflexivity).
  assert (Pv : velocity_of im i = i_velocity x) by (apply nth_error_nth; rewrite nth_error_map, Ex; reflexivity).
  specialize (X2 i x Ex). specialize (X3 i x Ex).
  assert (Px' : position_of im' i = if (i <? n_bots (ad_set (im_ad im)))%nat then nth i (bot_opinion (ad_set (im_ad im))) (f0 RA) else nth i xs' (f0 RA)).
  { apply nth_error_nth. rewrite nth_error_map, X3. reflexivity. }
  assert (Pv' : velocity_of im' i = verlet_velocity (a:=RA) h mu (i_velocity x) (nth i (f xs) (f0 RA)) (nth i (f xs') (f0 RA))).
  { apply nth_error_nth. rewrite nth_error_map, X3. reflexivity. }
  assert (Pm : @nth R i xs' 0 = verlet_position (a:=RA) h mu (i_opinion x) (i_velocity x) (nth i (f xs) (f0 RA))) by (apply nth_error_nth; exact X2).
  assert (F1 := Hf i xs Hi). assert (F2 := Hf i xs' Hi). change (@nth R i xs 0) with (position_of im i) in F1.
  change (fun j : nat => @nth R j xs 0) with (position_of im) in F1.
  assert (EL : flit RA 1 2 = / 2) by (cbn; match goal with |- ?u = ?w => change (@eq R u w) end; field).
  split; [|split].
  - assert (GP : forall a b c d : R, verlet_position (a:=RA) a b c d = fun e : R => c + d * a + a ^ 2 / 2 * (e - b * d)).
    { intros. apply FunctionalExtensionality.functional_extensionality. intros e. unfold verlet_position. rewrite EL. cbn. match goal with |- ?u = ?w => change (@eq R u w) end. field. }
    assert (GV : forall a b v d d' : R, 1 + b * a / 2 <> 0 -> (1 + b * a / 2) * verlet_velocity (a:=RA) a b v d d' = v + a / 2 * (d - b * v + d')).
    { intros a0 b v d d' Hab. unfold verlet_velocity. rewrite EL. cbn. match goal with |- ?u = ?w => change (@eq R u w) end. field. lra. }
    split.
    + rewrite Pm, GP. change (nth i (f xs) (f0 RA)) with (@nth R i (f xs) 0). rewrite F1, Px, Pv. ring.
    + rewrite Pv', (GV h mu _ _ _ Hz). change (nth i (f xs) (f0 RA)) with (@nth R i (f xs) 0). change (nth i (f xs') (f0 RA)) with (@nth R i (f xs') 0).
      rewrite F1, F2, Px, Pv. ring.
  - intros Hb. rewrite Px', (proj2 (Nat.ltb_ge _ _) Hb). reflexivity.
  - intros Hb. rewrite Px', (proj2 (Nat.ltb_lt _ _) Hb). reflexivity.
Qed.
End Step.

Section Track.
Context (lm : Libm RA) (g : Rng RA) (q : PQ RA).
Hypothesis Hq : pq_bag q.

Lemma inertial_snoc k : forall (im : inertial) s, inertial_run (a:=RA) lm g q (S k) im s =
  ('(im1, s1) <- inertial_run (a:=RA) lm g q k im s ;; inertial_iteration (a:=RA) lm g q im1 s1).
Proof.
  induction k as [|k IH]; intros im s.
  - cbn [inertial_run bind]. destruct (inertial_iteration (a:=RA) lm g q im s) as [[? ?]| | |]; reflexivity.
  - cbn [inertial_run]. destruct (inertial_iteration (a:=RA) lm g q im s) as [[im1 s1]| | |]; cbn [bind]; auto. rewrite <- IH. reflexivity.
Qed.
Definition inertial_same (im imj : inertial) : Prop :=
  ad_ready (im_ad imj) /\ ad_set (im_ad imj) = ad_set (im_ad im) /\ friction_coefficient imj = friction_coefficient im /\
  n_agents (ad_net (im_ad imj)) = n_agents (ad_net (im_ad im)) /\
  (forall i, (i < n_agents (ad_net (im_ad im)))%nat -> inertial_reluctance imj i = inertial_reluctance im i) /\
  map i_activity (agents (ad_net (im_ad imj))) = map i_activity (agents (ad_net (im_ad im))).

Lemma inertial_track (Q : nat -> inertial -> Prop) (im : inertial) s k im' s' : ad_ready (im_ad im) -> Q 0%nat im ->
  (forall j imj sj imj' sj', (j < k)%nat -> inertial_run (a:=RA) lm g q j im s = Ok (imj, sj) -> inertial_same im imj ->
     inertial_iteration (a:=RA) lm g q imj sj = Ok (imj', sj') -> inertial_run (a:=RA) lm g q (S j) im s = Ok (imj', sj') ->
     Q j imj -> Q (S j) imj') ->
  inertial_run (a:=RA) lm g q k im s = Ok (im', s') -> Q k im' /\ inertial_same im im'.
Proof using Hq.
  intros Hr H0. revert im' s'. induction k as [|k IH]; intros im' s' Hs E.
  - cbn in E. assert (im = im') by congruence. subst. split; [exact H0|]. split; [exact Hr|]. split; [reflexivity|]. split; [reflexivity|]. split; [reflexivity|]. split; reflexivity.
  - pose proof E as E'. rewrite inertial_snoc in E'. apply bind_ok_inv in E' as ([im1 s1] & E1 & E2).
    destruct (IH im1 s1) as [Q1 (F1 & F2 & F3 & F4 & F5 & F6)]; auto. { intros j imj sj imj' sj' Hj. apply Hs. lia. }
    split; [apply (Hs k im1 s1 im' s'); auto; (split; [exact F1|]; split; [exact F2|]; split; [exact F3|]; split; [exact F4|]; split; [exact F5|exact F6])|].
    destruct (inertial_frame lm g q Hq im1 im' s1 s' F1 E2) as (G1 & G2 & G3 & G4 & G5 & _ & G6).
    split; [exact G1|]. split; [congruence|]. split; [congruence|]. split; [congruence|]. split; [|congruence]. intros i Hi. rewrite G5; [now apply F5|]. rewrite F4. exact Hi.
Qed.
Lemma inertial_run_ready (k : nat) : forall (im : inertial) s, ad_ready (im_ad im) -> exists im' s', inertial_run (a:=RA) lm g q k im s = Ok (im', s').
Proof using Hq.
  induction k as [|k IH]; intros im s Hr; [exists im, s; reflexivity|].
  destruct (inertial_iteration_ok (a:=RA) lm g q im s Hq Hr) as (im1 & s1 & h0 & cpl & E1 & E2 & _). destruct (IH im1 s1 E2) as (im' & s' & E').
  exists im', s'. cbn [inertial_run]. rewrite E1. exact E'.
Qed.
Lemma inertial_prefix k j (im im' : inertial) s s' : (j <= k)%nat -> inertial_run (a:=RA) lm g q k im s = Ok (im', s') ->
  exists imj sj, inertial_run (a:=RA) lm g q j im s = Ok (imj, sj).
Proof.
  revert im' s'. induction k as [|k IH]; intros im' s' Hj E.
  - assert (j = 0%nat) by lia. subst. eauto.
  - destruct (Nat.eq_dec j (S k)) as [->|Hn]; [eauto|]. rewrite inertial_snoc in E. apply bind_ok_inv in E as ([im1 s1] & E1 & E2). apply (IH im1 s1); auto. lia.
Qed.
End Track.
