(** Following an activity-driven run step by step; isolated agents and agents that hear only bots. *)
From Verif Require Import Base BaseFacts Arith64 RFacts MRandom SRandom PRandom MDist MNetwork SNetwork PNetwork PNetwork2
  MAgents MDeGroot MActivity SActivity PActStep PActNet PActIter PActMean PActIter2 PActThm PActSym PActReal SRelax PRelax PTanh.
From Coq Require Import Reals Lra Psatz.
Local Open Scope R_scope.

Section Track.
Context (lm : Libm RA) (g : Rng RA) (q : PQ RA).
Hypothesis Hq : pq_bag q.
Notation model := (ad_model (a:=RA) (activity_agent (F RA))).

Lemma run_snoc k : forall (md : model) s, activity_run (a:=RA) lm g q (S k) md s =
  ('(md1, s1) <- activity_run (a:=RA) lm g q k md s ;; activity_iteration (a:=RA) lm g q md1 s1).
Proof.
  induction k as [|k IH]; intros md s.
  - cbn [activity_run bind]. destruct (activity_iteration (a:=RA) lm g q md s) as [[? ?]| | |]; reflexivity.
  - cbn [activity_run]. destruct (activity_iteration (a:=RA) lm g q md s) as [[md1 s1]| | |]; cbn [bind]; auto. rewrite <- IH. reflexivity.
Qed.

Definition same_frame (md mdj : model) : Prop :=
  ad_ready mdj /\ ad_set mdj = ad_set md /\ n_agents (ad_net mdj) = n_agents (ad_net md) /\
  (forall i, reluctance_of mdj i = reluctance_of md i) /\ map a_activity (agents (ad_net mdj)) = map a_activity (agents (ad_net md)).

Lemma run_track (Q : nat -> model -> Prop) (md : model) s k md' s' : ad_ready md -> Q 0%nat md ->
  (forall j mdj sj mdj' sj', (j < k)%nat -> activity_run (a:=RA) lm g q j md s = Ok (mdj, sj) -> same_frame md mdj ->
     activity_iteration (a:=RA) lm g q mdj sj = Ok (mdj', sj') -> activity_run (a:=RA) lm g q (S j) md s = Ok (mdj', sj') ->
     Q j mdj -> Q (S j) mdj') ->
  activity_run (a:=RA) lm g q k md s = Ok (md', s') -> Q k md' /\ same_frame md md'.
Proof using Hq.
  intros Hr H0. revert md' s'. induction k as [|k IH]; intros md' s' Hs E.
  - cbn in E. assert (md = md') by congruence. subst. split; [exact H0|]. split; [exact Hr|]. split; [reflexivity|]. split; [reflexivity|]. split; reflexivity.
  - pose proof E as E'. rewrite run_snoc in E'. apply bind_ok_inv in E' as ([md1 s1] & E1 & E2).
    destruct (IH md1 s1) as [Q1 (F1 & F2 & F3 & F4 & F5)]; auto. { intros j mdj sj mdj' sj' Hj. apply Hs. lia. }
    split; [apply (Hs k md1 s1 md' s'); auto; (split; [exact F1|]; split; [exact F2|]; split; [exact F3|]; split; [exact F4|exact F5])|].
    destruct (step_frame lm g q Hq md1 md' s1 s' F1 E2) as (G1 & G2 & G3 & G4 & G5 & _).
    split; [exact G1|]. split; [congruence|]. split; [congruence|]. split; [|congruence]. intros i. rewrite G4. apply F4.
Qed.
End Track.

Lemma zero_weights r : total_weight r = 0 -> forall p, In p r -> snd p = 0.
Proof.
  unfold total_weight. induction r as [|p r IH]; intros H p' Hp; [destruct Hp|]. cbn [map] in H. rewrite Rsum_cons in H.
  assert (0 <= Rsum (map (fun p => Rabs (snd p)) r)). { apply Rsum_nonneg. apply Forall_map, Forall_forall. intros; apply Rabs_pos. }
  pose proof (Rabs_pos (snd p)) as P. destruct Hp as [<-|Hp]; [|apply IH; auto; lra].
  assert (Rabs (snd p) = 0) by lra. destruct (Req_dec (snd p) 0) as [|N]; auto. apply Rabs_no_R0 in N. lra.
Qed.
Lemma no_pull st rel r y : total_weight r = 0 -> social_pull st rel r y = 0.
Proof.
  intros H. unfold social_pull. pose proof (zero_weights r H) as Z.
  assert (E : Rsum (map (fun p => snd p * tanh (alpha st * y (fst p))) r) = 0).
  { clear H. induction r as [|p r IH]; [reflexivity|]. cbn [map]. rewrite Rsum_cons, IH by (intros; apply Z; now right).
    rewrite (Z p (or_introl eq_refl)). ring. }
  rewrite E. apply Rmult_0_r.
Qed.
Lemma total_weight_nonneg r : 0 <= total_weight r.
Proof. apply Rsum_nonneg. apply Forall_map, Forall_forall. intros; apply Rabs_pos. Qed.

(** Pulls for nearby opinions are close. *)
Lemma pull_close st rel r y z d : Forall (fun p => snd p = 0 \/ Rabs (y (fst p) - z (fst p)) <= d) r ->
  Rabs (social_pull st rel r y - social_pull st rel r z) <= Rabs (K st / rel) * total_weight r * (Rabs (alpha st) * d).
Proof.
  intros H. unfold social_pull, total_weight. rewrite <- Rmult_minus_distr_l, Rabs_mult, Rmult_assoc.
  apply Rmult_le_compat_l; [apply Rabs_pos|]. induction r as [|p r IH]; cbn [map].
  - rewrite !Rsum_nil, Rminus_0_r, Rabs_R0. lra.
  - inversion H as [|p' r' Hp Hrr]; subst. rewrite !Rsum_cons.
    set (S1 := Rsum (map (fun p => snd p * tanh (alpha st * y (fst p))) r)) in *.
    set (S2 := Rsum (map (fun p => snd p * tanh (alpha st * z (fst p))) r)) in *.
    set (S3 := Rsum (map (fun p => Rabs (snd p)) r)) in *.
    replace (snd p * tanh (alpha st * y (fst p)) + S1 - (snd p * tanh (alpha st * z (fst p)) + S2))
      with (snd p * (tanh (alpha st * y (fst p)) - tanh (alpha st * z (fst p))) + (S1 - S2)) by ring.
    eapply Rle_trans; [apply Rabs_triang|]. rewrite Rmult_plus_distr_r. apply Rplus_le_compat; [|apply IH; auto].
    rewrite Rabs_mult. destruct Hp as [Hp|Hp]; [rewrite Hp, Rabs_R0; lra|]. apply Rmult_le_compat_l; [apply Rabs_pos|]. eapply Rle_trans; [apply tanh_lipschitz|].
    rewrite <- Rmult_minus_distr_l, Rabs_mult. apply Rmult_le_compat_l; [apply Rabs_pos|exact Hp].
Qed.
Lemma pull_bound st rel r y : Rabs (social_pull st rel r y) <= Rabs (K st / rel) * total_weight r.
Proof.
  unfold social_pull, total_weight. rewrite Rabs_mult. apply Rmult_le_compat_l; [apply Rabs_pos|].
  induction r as [|p r IH]; cbn [map]; [rewrite !Rsum_nil, Rabs_R0; lra|]. rewrite !Rsum_cons.
  eapply Rle_trans; [apply Rabs_triang|]. apply Rplus_le_compat; auto. rewrite Rabs_mult.
  pose proof (tanh_abs_lt_1 (alpha st * y (fst p))). pose proof (Rabs_pos (snd p)). nra.
Qed.
Lemma pull_small st rel r y d : Forall (fun p => Rabs (y (fst p)) <= d) r ->
  Rabs (social_pull st rel r y) <= Rabs (K st / rel) * total_weight r * (Rabs (alpha st) * d).
Proof.
  intros H. pose proof (pull_close st rel r y (fun _ => 0) d) as P.
  assert (Z : social_pull st rel r (fun _ => 0) = 0).
  { unfold social_pull. rewrite Rmult_0_r, tanh_0. assert (E : Rsum (map (fun p : nat * R => snd p * 0) r) = 0).
    { clear. induction r as [|p r IH]; [reflexivity|]. cbn [map]. rewrite Rsum_cons, IH. ring. } rewrite E. ring. }
  rewrite Z, Rminus_0_r in P. apply P. eapply Forall_impl; [|exact H]. cbv beta. intros p Hp. right. now rewrite Rminus_0_r.
Qed.
(** The pull depends only on the opinions of the neighbours. *)
Lemma pull_ext st rel r y z : Forall (fun p => y (fst p) = z (fst p)) r -> social_pull st rel r y = social_pull st rel r z.
Proof.
  intros H. unfold social_pull. f_equal. f_equal. apply map_ext_in. intros p Hp. rewrite Forall_forall in H. now rewrite (H p Hp).
Qed.

(** A bot does not go far during a step: its opinion is between the stages at distance at most 3 h B. *)
Lemma bot_stages b h B g1 g2 g3 y2 y3 y4 : 0 < h <= 1 -> Rabs b <= B -> Rabs g1 <= B -> Rabs g2 <= B -> Rabs g3 <= B ->
  y2 = b + h / 2 * (g1 - b) -> y3 = b + h / 2 * (g2 - y2) -> y4 = b + h * (g3 - y3) ->
  Rabs (y2 - b) <= 3 * h * B /\ Rabs (y3 - b) <= 3 * h * B /\ Rabs (y4 - b) <= 3 * h * B.
Proof.
  intros Hh Hb H1 H2 H3 E2 E3 E4. apply abs_le_iff in Hb, H1, H2, H3. assert (HB : 0 <= B) by lra.
  assert (A2 : - B <= y2 <= B) by (subst y2; split; nra).
  assert (A3 : - (2 * B) <= y3 <= 2 * B) by (subst y3; clear E2 E4; split; nra).
  repeat split; apply abs_le_iff.
  - subst y2. split; nra.
  - rewrite E3. clear E3 E4 E2 A3. split; nra.
  - rewrite E4. clear E2 E3 E4. split; nra.
Qed.

(** Around an equilibrium [p] at which the pulls contract by [c], a step contracts. *)
Lemma rk4_contracts n (x y2 y3 y4 p : nat -> R) (G : nat -> (nat -> R) -> R) h c M d :
  0 < h <= 1 -> 0 <= c <= 1 -> 0 <= M -> 5 / 2 * M <= d ->
  (forall i y e, (i < n)%nat -> 0 <= e <= d -> (forall j, (j < n)%nat -> Rabs (y j - p j) <= e) -> Rabs (G i y - p i) <= c * e) ->
  (forall j, (j < n)%nat -> Rabs (x j - p j) <= M) ->
  (forall i, (i < n)%nat -> y2 i = x i + h / 2 * (G i x - x i) /\ y3 i = x i + h / 2 * (G i y2 - y2 i) /\ y4 i = x i + h * (G i y3 - y3 i)) ->
  forall i, (i < n)%nat ->
    Rabs (x i + h / 6 * ((G i x - x i) + 2 * (G i y2 - y2 i) + 2 * (G i y3 - y3 i) + (G i y4 - y4 i)) - p i)
    <= (1 - h / 2 * (1 - c * (1 + 2 / 3 * h ^ 2))) * M.
Proof.
  intros Hh Hc HM Hd HG Hx Hy.
  assert (Hsq : 0 <= h ^ 2 <= h) by nra. assert (Hcu : 0 <= h ^ 3 <= h ^ 2) by nra. assert (Hq4 : 0 <= h ^ 4 <= h ^ 3) by nra.
  assert (G1 : forall i, (i < n)%nat -> Rabs (G i x - p i) <= c * M) by (intros i Hi; apply HG; auto; lra).
  assert (Y2 : forall i, (i < n)%nat -> Rabs (y2 i - p i) <= M).
  { intros i Hi. destruct (Hy i Hi) as (E & _). specialize (Hx i Hi). specialize (G1 i Hi). apply abs_le_iff in Hx, G1. apply abs_le_iff.
    replace (y2 i - p i) with ((1 - h / 2) * (x i - p i) + h / 2 * (G i x - p i)) by (rewrite E; field).
    assert (A : - M <= G i x - p i <= M) by nra. assert (0 <= 1 - h / 2) by lra. generalize dependent (G i x - p i). generalize dependent (x i - p i). intros u Hu v _ Hv. split; nra. }
  assert (G2 : forall i, (i < n)%nat -> Rabs (G i y2 - p i) <= c * M) by (intros i Hi; apply HG; auto; lra).
  assert (Y3 : forall i, (i < n)%nat -> Rabs (y3 i - p i) <= (1 + h ^ 2 / 2) * M).
  { intros i Hi. destruct (Hy i Hi) as (E2 & E & _). specialize (Hx i Hi). specialize (G1 i Hi). specialize (G2 i Hi). apply abs_le_iff in Hx, G1, G2. apply abs_le_iff.
    replace (y3 i - p i) with ((1 - h / 2 + h ^ 2 / 4) * (x i - p i) - h ^ 2 / 4 * (G i x - p i) + h / 2 * (G i y2 - p i)) by (rewrite E, E2; field).
    assert (A : - M <= G i x - p i <= M) by nra. assert (B : - M <= G i y2 - p i <= M) by nra.
    assert (0 <= 1 - h / 2 + h ^ 2 / 4) by lra. split; nra. }
  assert (H3 : 0 <= (1 + h ^ 2 / 2) * M <= d) by (split; nra).
  assert (G3 : forall i, (i < n)%nat -> Rabs (G i y3 - p i) <= c * ((1 + h ^ 2 / 2) * M)) by (intros i Hi; apply HG; auto).
  assert (Y4 : forall i, (i < n)%nat -> Rabs (y4 i - p i) <= (1 + h ^ 2 + h ^ 3 / 2) * M).
  { intros i Hi. destruct (Hy i Hi) as (E2 & E3 & E). specialize (Hx i Hi). specialize (G1 i Hi). specialize (G2 i Hi). specialize (G3 i Hi). apply abs_le_iff in Hx, G1, G2, G3. apply abs_le_iff.
    replace (y4 i - p i) with ((1 - h + h ^ 2 / 2 - h ^ 3 / 4) * (x i - p i) + h ^ 3 / 4 * (G i x - p i) - h ^ 2 / 2 * (G i y2 - p i) + h * (G i y3 - p i)) by (rewrite E, E3, E2; field).
    assert (A : - M <= G i x - p i <= M) by nra. assert (B : - M <= G i y2 - p i <= M) by nra.
    set (M3 := (1 + h ^ 2 / 2) * M) in *. assert (C : - M3 <= G i y3 - p i <= M3) by nra.
    assert (0 <= 1 - h + h ^ 2 / 2 - h ^ 3 / 4) by lra.
    assert (U : forall u v w z : R, - M <= u <= M -> - M <= v <= M -> - M <= w <= M -> - M3 <= z <= M3 ->
      (1 - h + h ^ 2 / 2 - h ^ 3 / 4) * u + h ^ 3 / 4 * v - h ^ 2 / 2 * w + h * z <= (1 - h + h ^ 2 / 2 - h ^ 3 / 4) * M + h ^ 3 / 4 * M + h ^ 2 / 2 * M + h * M3).
    { intros u v w z Hu Hv Hw Hz. assert (B1 : 0 <= (1 - h + h ^ 2 / 2 - h ^ 3 / 4) * (M - u)) by (apply Rmult_le_pos; lra).
      assert (B2 : 0 <= h ^ 3 / 4 * (M - v)) by (apply Rmult_le_pos; lra). assert (B3 : 0 <= h ^ 2 / 2 * (M + w)) by (apply Rmult_le_pos; lra).
      assert (B4 : 0 <= h * (M3 - z)) by (apply Rmult_le_pos; lra). lra. }
    assert (EQ : (1 - h + h ^ 2 / 2 - h ^ 3 / 4) * M + h ^ 3 / 4 * M + h ^ 2 / 2 * M + h * M3 = (1 + h ^ 2 + h ^ 3 / 2) * M) by (unfold M3; field).
    split.
    - pose proof (U (- (x i - p i)) (- (G i x - p i)) (- (G i y2 - p i)) (- (G i y3 - p i)) ltac:(lra) ltac:(lra) ltac:(lra) ltac:(lra)). lra.
    - pose proof (U (x i - p i) (G i x - p i) (G i y2 - p i) (G i y3 - p i) Hx A B C). lra. }
  assert (H4 : 0 <= (1 + h ^ 2 + h ^ 3 / 2) * M <= d) by (split; nra).
  assert (G4 : forall i, (i < n)%nat -> Rabs (G i y4 - p i) <= c * ((1 + h ^ 2 + h ^ 3 / 2) * M)) by (intros i Hi; apply HG; auto).
  intros i Hi. destruct (Hy i Hi) as (E2 & E3 & E4). rewrite (mixture _ _ _ _ _ _ _ _ _ E2 E3 E4).
  destruct (mixture_pos h Hh) as (P0 & P1 & P2 & P3 & P4 & P5). pose proof (mixture_sum h) as PS.
  specialize (Hx i Hi). specialize (G1 i Hi). specialize (G2 i Hi). specialize (G3 i Hi). specialize (G4 i Hi).
  replace (decay h * x i + mix1 h * G i x + mix2 h * G i y2 + mix3 h * G i y3 + mix4 h * G i y4 - p i)
    with (decay h * (x i - p i) + mix1 h * (G i x - p i) + mix2 h * (G i y2 - p i) + mix3 h * (G i y3 - p i) + mix4 h * (G i y4 - p i))
    by (transitivity (decay h * x i + mix1 h * G i x + mix2 h * G i y2 + mix3 h * G i y3 + mix4 h * G i y4 - (decay h + mix1 h + mix2 h + mix3 h + mix4 h) * p i); [ring|rewrite PS; ring]).
  apply Rle_trans with (decay h * M + mix1 h * (c * M) + mix2 h * (c * M) + mix3 h * (c * ((1 + h ^ 2 / 2) * M)) + mix4 h * (c * ((1 + h ^ 2 + h ^ 3 / 2) * M))).
  { apply abs_le_iff in Hx, G1, G2, G3, G4.
    assert (T : forall a b u : R, 0 <= a -> - u <= b <= u -> - (a * u) <= a * b <= a * u) by (intros; split; nra).
    pose proof (T _ _ _ (Rlt_le _ _ P0) Hx). pose proof (T _ _ _ P1 G1). pose proof (T _ _ _ P2 G2). pose proof (T _ _ _ P3 G3). pose proof (T _ _ _ P4 G4).
    apply abs_le_iff. lra. }
  replace (decay h * M + mix1 h * (c * M) + mix2 h * (c * M) + mix3 h * (c * ((1 + h ^ 2 / 2) * M)) + mix4 h * (c * ((1 + h ^ 2 + h ^ 3 / 2) * M)))
    with ((1 - (1 - c) * (1 - decay h) + c * (h ^ 3 / 3)) * M)
    by (unfold decay, mix1, mix2, mix3, mix4; field).
  apply Rmult_le_compat_r; [exact HM|]. nra.
Qed.
