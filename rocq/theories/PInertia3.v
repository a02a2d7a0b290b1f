(** Runs of the inertial model as sequences; populations without contacts; two agents in mean-field mode. *)
From Verif Require Import Base BaseFacts Arith64 RFacts MRandom SRandom PRandom WRandom MDist MNetwork SNetwork PNetwork PNetwork2
  MAgents MDeGroot MActivity SActivity PActStep PActNet PActIter PActMean PActIter2 PActInit PActThm PActSym PActReal PActMean2
  TActivity TActivityR TMean TNetGen SRelax PRelax PRelax2 PTanh SInertia PInertia PInertia2.
From Coq Require Import Reals Lra Psatz Permutation.
Local Open Scope R_scope.

Section Runs.
Context (lm : Libm RA) (g : Rng RA) (q : PQ RA).
Hypothesis Hq : pq_bag q.

(** The rows of agent [i] in the networks of iterations 1 to [k] of a run. *)
Definition inertial_rows (k : nat) (im : inertial) s (i : nat) (P : list (nat * R) -> Prop) : Prop :=
  forall j imj sj, (1 <= j <= k)%nat -> inertial_run (a:=RA) lm g q j im s = Ok (imj, sj) -> P (row (ad_net (im_ad imj)) i).

Lemma inertial_sequence k (im im' : inertial) s s' i : ad_ready (im_ad im) -> inertial_run (a:=RA) lm g q k im s = Ok (im', s') ->
  exists X V : nat -> R, X 0%nat = position_of im i /\ V 0%nat = velocity_of im i /\ X k = position_of im' i /\ V k = velocity_of im' i /\
    forall j, (j < k)%nat -> exists imj sj imj' sj', inertial_run (a:=RA) lm g q j im s = Ok (imj, sj) /\ inertial_same im imj /\
      inertial_iteration (a:=RA) lm g q imj sj = Ok (imj', sj') /\ inertial_run (a:=RA) lm g q (S j) im s = Ok (imj', sj') /\
      X j = position_of imj i /\ V j = velocity_of imj i /\ X (S j) = position_of imj' i /\ V (S j) = velocity_of imj' i.
Proof using Hq.
  intros Hr E.
  set (X := fun j => match inertial_run (a:=RA) lm g q j im s with Ok (imj, _) => position_of imj i | _ => 0 end).
  set (V := fun j => match inertial_run (a:=RA) lm g q j im s with Ok (imj, _) => velocity_of imj i | _ => 0 end).
  assert (HX : forall j imj sj, inertial_run (a:=RA) lm g q j im s = Ok (imj, sj) -> X j = position_of imj i /\ V j = velocity_of imj i).
  { intros j imj sj Ej. unfold X, V. rewrite Ej. split; reflexivity. }
  exists X, V. destruct (HX 0%nat im s eq_refl) as (A1 & A2). destruct (HX k im' s' E) as (B1 & B2).
  split; [exact A1|]. split; [exact A2|]. split; [exact B1|]. split; [exact B2|]. intros j Hj.
  destruct (inertial_prefix lm g q k (S j) im im' s s' ltac:(lia) E) as (imj' & sj' & Ej'). pose proof Ej' as Es.
  rewrite inertial_snoc in Es. apply bind_ok_inv in Es as ([imj sj] & Ej & Ei).
  destruct (inertial_track lm g q Hq (fun _ _ => True) im s j imj sj Hr I) as [_ HF]; auto.
  exists imj, sj, imj', sj'. destruct (HX _ _ _ Ej) as (C1 & C2). destruct (HX _ _ _ Ej') as (D1 & D2).
  split; [exact Ej|]. split; [exact HF|]. split; [exact Ei|]. split; [exact Ej'|]. split; [exact C1|]. split; [exact C2|]. split; [exact D1|exact D2].
Qed.

Definition inertial_silent (im : inertial) : Prop :=
  if mean_weights (ad_set (im_ad im)) then forall i, (i < n_agents (ad_net (im_ad im)))%nat -> contact_count (a:=RA) (ad_set (im_ad im)) i = 0%nat
  else Forall (fun x : R => x <= 0) (map i_activity (agents (ad_net (im_ad im)))).

Lemma inertial_silent_rows (im im' : inertial) s s' i : real_ok g -> ad_ready (im_ad im) -> inertial_silent im ->
  inertial_iteration (a:=RA) lm g q im s = Ok (im', s') -> (i < n_agents (ad_net (im_ad im)))%nat ->
  total_weight (row (ad_net (im_ad im')) i) = 0.
Proof using Hq.
  intros Hg Hr Hs E Hi.
  assert (WZ : forall r : list (nat * R), (forall p, In p r -> snd p = 0) -> total_weight r = 0).
  { intros r G. unfold total_weight. induction r as [|p r IH]; [reflexivity|]. cbn [map]. rewrite Rsum_cons, IH by (intros; apply G; now right).
    rewrite (G p (or_introl eq_refl)), Rabs_R0. ring. }
  unfold inertial_silent in Hs. set (md := im_ad im) in *. destruct (mean_weights (ad_set md)) eqn:Hm.
  - destruct (C45_inertial_weights (a:=RA) lm g q im im' s s' Hq Hr Hm E) as (_ & _ & H). fold md in H.
    specialize (H i Hi). unfold n_agents in Hi, Hs.
    assert (G : forall p, In p (row (ad_net (im_ad im')) i) -> snd p = 0).
    { intros p Hp. rewrite H in Hp. apply in_map_iff in Hp as (j & <- & Hj). cbn [snd]. apply in_seq in Hj.
      assert (PZ : forall u v, (u < length (agents (ad_net md)))%nat -> contact_probability (a:=RA) lm (inertial_ops (F RA)) (ad_set md) (agents (ad_net md)) u v = 0).
      { intros u v Hu. unfold contact_probability. rewrite (Hs u Hu). destruct (nth_error (agents (ad_net md)) u); [|reflexivity].
        unfold rounds. cbn [seq fold_left]. cbn [fmul f0 RA]. apply Rmult_0_r. }
      eapply eq_trans; [apply (C45_weight_formula (reciprocity (ad_set md)))|].
      rewrite (PZ i j Hi), (PZ j i) by lia. match goal with |- ?u = ?w => change (@eq R u w) end. ring. }
    apply WZ. exact G.
  - destruct (inertial_iteration_ok (a:=RA) lm g q im s Hq Hr)
      as (im2 & s2 & h & cpl & E1 & E2 & E3 & E4 & E5 & E6 & E7 & E8 & E9 & E10 & _).
    rewrite E in E1. assert (im2 = im') by congruence. subst im2. fold md in E3, E10.
    unfold update_network in E3. rewrite Hm in E3. cbn [negb] in E3. apply bind_ok_inv in E3 as ([h0 s0] & E3 & E0).
    assert (h0 = h) by congruence. subst h0.
    pose proof Hr as (W1 & W2 & W3 & _). fold md in W1, W2, W3.
    destruct (C42_contact_graph RA lm g q _ (inertial_ops (F RA)) (ad_set md) (ad_net md) s Hq W3 W1 W2)
      as (h' & s3 & cs & s1 & Rc & D1 & D2 & D3 & D4 & D5 & D6 & D7 & D8).
    rewrite E3 in D1. assert (h' = h) by congruence. subst h'.
    assert (N : forall u, nth u cs [] = []).
    { intros u. destruct (nth_error (agents (ad_net md)) u) as [x|] eqn:Ex.
      - destruct (C42_contacts_per_agent RA lm g q _ (inertial_ops (F RA)) (ad_set md) (agents (ad_net md)) s cs s1 Hq W3 D2) as [_ H].
        destruct (H u x Ex) as (t & v & t1 & P1 & P2 & _). apply P2.
        pose proof (Hg (f0 RA) (f1 RA) t) as RO. rewrite P1 in RO. cbn [fst] in RO.
        assert (HV : (0 <= v)%R).
        { assert (RB : flt RA (f0 RA) (f1 RA) = true) by (cbn; destruct (Rltb_spec 0 1); auto; lra). destruct (RO RB) as [RL _]. cbn in RL. destruct (Rleb_spec 0 v); [exact r|discriminate]. }
        assert (HX : (i_activity x <= 0)%R).
        { rewrite Forall_forall in Hs. apply Hs. apply in_map. eapply nth_error_In; eauto. }
        cbn [flt RA]. destruct (Rltb_spec v (get_activity (inertial_ops (F RA)) x)) as [C|C]; auto. exfalso.
        cbn [get_activity inertial_ops] in C. exact (Rlt_irrefl 0 (Rle_lt_trans _ _ _ HV (Rlt_le_trans _ _ _ C HX))).
      - apply nth_overflow. apply nth_error_None in Ex. rewrite D3. exact Ex. }
    assert (CP : contact_pairs cs = []).
    { unfold contact_pairs. induction (seq 0 (length cs)) as [|u l IH]; [reflexivity|]. cbn [flat_map]. rewrite N, IH. reflexivity. }
    assert (RE : Rc = []). { unfold one_way in D4. rewrite CP in D4. cbn in D4. congruence. }
    rewrite CP, RE in D8. cbn in D8. apply Permutation_sym, Permutation_nil in D8.
    assert (Er : row (ad_net (im_ad im')) i = row h i) by (unfold row; now rewrite E7, E8). rewrite Er.
    assert (Rn : row h i = []).
    { assert (Hl : (i < length (neigh h))%nat). { destruct D7 as (V1 & _). rewrite V1. unfold n_agents in Hi. rewrite D5. exact Hi. }
      destruct (row h i) as [|p r] eqn:Eh; auto. exfalso.
      assert (Hin : In (match dir h with Outgoing => (i, fst p, snd p) | Incoming => (fst p, i, snd p) end) (edges h)).
      { unfold edges. apply in_flat_map. exists i. split; [apply in_seq; lia|]. rewrite Eh. now left. }
      exact (eq_ind _ (fun l => In _ l) Hin _ D8). }
    rewrite Rn. reflexivity.
Qed.
Lemma inertial_silent_run k (im : inertial) s i : real_ok g -> ad_ready (im_ad im) -> inertial_silent im -> (i < n_agents (ad_net (im_ad im)))%nat ->
  inertial_rows k im s i (fun r => total_weight r = 0).
Proof using Hq.
  intros Hg Hr Hs Hi j imj sj Hj Ej. destruct j as [|j]; [lia|]. pose proof Ej as Ej'. rewrite inertial_snoc in Ej'. apply bind_ok_inv in Ej' as ([im1 s1] & E1 & E2).
  destruct (inertial_track lm g q Hq (fun _ _ => True) im s j im1 s1 Hr I) as [_ (F1 & F2 & F3 & F4 & F5 & F6)]; auto.
  eapply (inertial_silent_rows im1 imj s1 sj); eauto; [|rewrite F4; apply Hi].
  unfold inertial_silent in *. rewrite F2. destruct (mean_weights (ad_set (im_ad im))).
  - intros u Hu. apply Hs. now rewrite <- F4.
  - rewrite F6. exact Hs.
Qed.

(** Two agents in mean-field mode. *)
Hypothesis Hpow : lpow RA lm = Rpow.
Lemma two_chance {A} (ops : agent_ops (F RA) A) (st : ad_settings (F RA)) (l : list A) i j x : length l = 2%nat -> (i < 2)%nat -> (j < 2)%nat -> i <> j ->
  nth_error l i = Some x -> (get_activity ops x <= 1)%R -> (contact_count (a:=RA) st i <= 1)%nat ->
  contact_probability (a:=RA) lm ops st l i j = INR (contact_count (a:=RA) st i).
Proof using Hpow.
  intros HL Hi Hj Hne Ex Ha Hc. unfold contact_probability. rewrite Ex.
  assert (Hm : fmax RA (f1 RA) (get_activity ops x) = 1).
  { unfold fmax. cbn [flt f1 RA]. destruct (Rltb_spec 1 (get_activity ops x)) as [C|C]; auto. exfalso. exact (Rlt_irrefl 1 (Rlt_le_trans _ _ _ C Ha)). }
  destruct (C45_shares_sum_to_one lm Hpow ops st l i ltac:(rewrite HL; exact Hi) ltac:(rewrite HL; apply le_n)) as (S1 & _ & S2).
  assert (Sh : share (a:=RA) lm ops st l i j = 1).
  { rewrite HL in S1. cbn [seq map] in S1. assert (S3 : forall u v : R, Rsum [u; v] = u + v) by (intros; rewrite !Rsum_cons, Rsum_nil; ring).
    pose proof (eq_trans (eq_sym (S3 _ _)) S1) as S4.
    destruct i as [|[|i]]; destruct j as [|[|j]]; try lia; rewrite S2 in S4.
    - rewrite Rplus_0_l in S4. exact S4.
    - rewrite Rplus_0_r in S4. exact S4. }
  rewrite Sh, Hm. cbn [fmul RA]. rewrite Rmult_1_l. eapply eq_trans; [apply (rounds_R lm Hpow 1 (contact_count (a:=RA) st i)); lra|].
  destruct (contact_count (a:=RA) st i) as [|[|c]]; [reflexivity| |lia]. cbn [seq map plus pow]. rewrite Rsum_cons, Rsum_nil. cbn. lra.
Qed.
Lemma inertial_two_rows (im im' : inertial) s s' : ad_ready (im_ad im) -> mean_weights (ad_set (im_ad im)) = true -> n_agents (ad_net (im_ad im)) = 2%nat ->
  Forall (fun x : R => x <= 1) (map i_activity (agents (ad_net (im_ad im)))) ->
  (contact_count (a:=RA) (ad_set (im_ad im)) 0 <= 1)%nat -> (contact_count (a:=RA) (ad_set (im_ad im)) 1 <= 1)%nat ->
  inertial_iteration (a:=RA) lm g q im s = Ok (im', s') ->
  let c0 := INR (contact_count (a:=RA) (ad_set (im_ad im)) 0) in let c1 := INR (contact_count (a:=RA) (ad_set (im_ad im)) 1) in let rc := reciprocity (ad_set (im_ad im)) in
  row (ad_net (im_ad im')) 0 = [(0%nat, 0); (1%nat, c1 + (1 - c1) * rc * c0)] /\ row (ad_net (im_ad im')) 1 = [(0%nat, c0 + (1 - c0) * rc * c1); (1%nat, 0)].
Proof using Hpow Hq.
  intros Hr Hm HL Ha H0 H1 E c0 c1 rc. destruct (C45_inertial_weights (a:=RA) lm g q im im' s s' Hq Hr Hm E) as (D1 & D2 & D3).
  unfold n_agents in HL. set (md := im_ad im) in *. set (net' := ad_net (im_ad im')) in *.
  destruct (agents (ad_net md)) as [|x0 [|x1 [|? ?]]] eqn:El; try discriminate HL. 
  assert (A0 : (i_activity x0 <= 1)%R) by (inversion Ha; auto). assert (A1 : (i_activity x1 <= 1)%R) by (inversion Ha as [|? ? ? Ha']; inversion Ha'; auto).
  pose proof (two_chance (inertial_ops (F RA)) (ad_set md) [x0; x1] 0 1 x0 eq_refl ltac:(lia) ltac:(lia) ltac:(lia) eq_refl A0 H0) as P0.
  pose proof (two_chance (inertial_ops (F RA)) (ad_set md) [x0; x1] 1 0 x1 eq_refl ltac:(lia) ltac:(lia) ltac:(lia) eq_refl A1 H1) as P1.
  assert (MN : mean_network (a:=RA) lm (inertial_ops (F RA)) (ad_set md) [x0; x1] net') by (split; [exact D1|split; [exact D2|exact D3]]).
  assert (SZ : forall i w, (i < 2)%nat -> In (i, w) (row net' i) -> w = 0).
  { intros i w Hi Hin. exact (C45_self_weight_zero lm Hpow (inertial_ops (F RA)) (ad_set md) [x0; x1] net' i w MN Hi (le_n _) Hin). }
  pose proof (D3 0%nat ltac:(cbn; lia)) as R0. pose proof (D3 1%nat ltac:(cbn; lia)) as R1. cbn [length seq map] in R0, R1.
  set (W := mean_weight (a:=RA) (reciprocity (ad_set md)) (contact_probability (a:=RA) lm (inertial_ops (F RA)) (ad_set md) [x0; x1])) in *.
  assert (S0 : W 0%nat 0%nat = 0) by (apply (SZ 0%nat); [lia|]; rewrite R0; apply in_eq).
  assert (S1 : W 1%nat 1%nat = 0) by (apply (SZ 1%nat); [lia|]; rewrite R1; apply in_cons, in_eq).
  pose proof (C45_weight_formula (reciprocity (ad_set md)) (contact_probability (a:=RA) lm (inertial_ops (F RA)) (ad_set md) [x0; x1]) 0 1) as W01.
  pose proof (C45_weight_formula (reciprocity (ad_set md)) (contact_probability (a:=RA) lm (inertial_ops (F RA)) (ad_set md) [x0; x1]) 1 0) as W10.
  rewrite P0, P1 in W01, W10. split.
  - eapply eq_trans; [exact R0|]. rewrite S0. exact (f_equal (fun w : R => [(0%nat, 0); (1%nat, w)]) W01).
  - eapply eq_trans; [exact R1|]. rewrite S1. exact (f_equal (fun w : R => [(0%nat, w); (1%nat, 0)]) W10).
Qed.
End Runs.

(** A fully connected inertial model. *)
From Verif Require Import WRelax.
Definition complete_inertial (st : ad_settings R) (fr : R) (l : list (inertial_agent R)) : inertial :=
  mkIM (a:=RA) (mkAD (a:=RA) (A:=inertial_agent (F RA)) (mkBase None 0) st
    (mkNet (A:=inertial_agent (F RA)) (W:=F RA) l (repeat (seq 0 (length l)) (length l)) (repeat (repeat 0 (length l)) (length l)) Incoming)
    (repeat (repeat 0 (length l)) (length l))) fr.
Lemma complete_inertial_ready (st : ad_settings R) fr l : settings_fit (a:=RA) st (length l) -> (n_bots st <= length l)%nat ->
  (n_bots st <= length (bot_opinion st))%nat -> ad_ready (im_ad (complete_inertial st fr l)).
Proof.
  intros Hf Hb Hb'. split.
  { split; [cbn; apply repeat_length|]. split; [cbn; apply repeat_length|]. split.
    - intros i Hi. cbn in *. rewrite !nth_repeat_in by exact Hi. now rewrite seq_length, repeat_length.
    - intros i j Hj. cbn in *. destruct (le_lt_dec (length l) i) as [Hi|Hi].
      + rewrite nth_overflow in Hj by (rewrite repeat_length; exact Hi). destruct Hj.
      + rewrite nth_repeat_in in Hj by exact Hi. apply in_seq in Hj. lia. }
  split; [reflexivity|]. split; [exact Hf|]. split; [exact Hb|]. split; [exact Hb'|]. intros _. split.
  - split; [reflexivity|]. cbn. apply repeat_length.
  - cbn. apply repeat_length.
Qed.
