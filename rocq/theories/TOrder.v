(** Property theorem C102: without bots the activity-driven model integrates its differential equation with fourth order; with bots only with first order. *)
From Verif Require Import Base BaseFacts Arith64 RFacts MRandom SRandom PRandom WRandom MDist MNetwork SNetwork PNetwork PNetwork2
  MAgents MDeGroot MActivity SActivity PActStep PActNet PActIter PActMean PActIter2 PActInit PActThm PActSym PActReal PActMean2
  TActivity TActivityR TMean TNetGen SRelax PRelax PRelax2 PRelax3 PTanh WRelax TRelax TConsensus SOde TOde PTaylor PRk4.
From Coq Require Import Reals Lra Psatz.
Local Open Scope R_scope.

Section Order.
Context (lm : Libm RA) (g : Rng RA) (q : PQ RA).
Hypothesis Htanh : forall x : R, ltanh RA lm x = tanh x.
Hypothesis Hq : pq_bag q.
Notation activity_model := (ad_model (a:=RA) (activity_agent (F RA))).

(** C102. Fix the number of agents, the couplings kap_i = K / reluctance_i, the controversialness al, the rows W of the
    network and a solution y of y_i' = -y_i + kap_i sum_j w_ij tanh (al y_j) on [0, T]. There is a constant C such that for
    every time step and every run that stays within [0, T], the opinions differ from the solution by at most C dt^4. *)
Theorem C102_fourth_order n (kap : nat -> R) al (W : nat -> list (nat * R)) T (y : nat -> R -> R) :
  (forall i p, (i < n)%nat -> In p (W i) -> (fst p < n)%nat) ->
  (forall i t, (i < n)%nat -> 0 <= t <= T -> derivable_pt_lim (y i) t (- y i t + kap i * Rsum (map (fun p => snd p * tanh (al * y (fst p) t)) (W i)))) ->
  exists C, 0 <= C /\ forall k (md md' : activity_model) s s', ad_ready md -> n_agents (ad_net md) = n -> n_bots (ad_set md) = 0%nat ->
    alpha (ad_set md) = al -> (forall i, (i < n)%nat -> K (ad_set md) / reluctance_of md i = kap i /\ opinion_of md i = y i 0 /\ rows_along lm g q k md s i (fun r => r = W i)) ->
    activity_run (a:=RA) lm g q k md s = Ok (md', s') -> 0 < dt (ad_set md) -> INR k * dt (ad_set md) <= T ->
    forall i, (i < n)%nat -> Rabs (opinion_of md' i - y i (INR k * dt (ad_set md))) <= C * dt (ad_set md) ^ 4.
Proof using Htanh Hq.
  intros HW Hode.
  assert (Hbd : forall i, (i < n)%nat -> bounded_on T (y i)).
  { intros i Hi. set (P := Rabs (kap i) * Rsum (map (fun p => Rabs (snd p)) (W i))).
    assert (SP : forall l : list (nat * R), 0 <= Rsum (map (fun p => Rabs (snd p)) l)).
    { induction l as [|u l IH]; cbn [map]; rewrite ?Rsum_nil, ?Rsum_cons; [lra|]. pose proof (Rabs_pos (snd u)). lra. }
    assert (P0 : 0 <= P) by (apply Rmult_le_pos; [apply Rabs_pos|apply SP]).
    exists (Rabs (y i 0) + P). split; [pose proof (Rabs_pos (y i 0)); lra|].
    apply (decay_bounded (y i) (fun t => kap i * Rsum (map (fun p => snd p * tanh (al * y (fst p) t)) (W i))) P T P0); [intros t Ht; now apply Hode|].
    intros t _. rewrite Rabs_mult. apply Rmult_le_compat_l; [apply Rabs_pos|]. generalize (W i). clear. induction l as [|u l IH]; cbn [map]; rewrite ?Rsum_nil, ?Rsum_cons; [rewrite Rabs_R0; lra|].
    eapply Rle_trans; [apply Rabs_triang|]. rewrite Rabs_mult. pose proof (tanh_abs_lt_1 (al * y (fst u) t)). pose proof (Rabs_pos (snd u)). nra. }
  destruct (rk_near T n kap al W y HW Hode Hbd) as (Lam & C & HL & HC & HN).
  exists (C * exp (Lam * Rabs T)). split; [apply Rmult_le_pos; auto; left; apply exp_pos|].
  intros k md md' s s' Hr En Hb Ha HI E Hh HT i0 Hi0. set (h := (dt (ad_set md) : R)) in *.
  assert (Main : forall i, (i < n)%nat -> Rabs (opinion_of md' i - y i (INR k * h)) <= C * h ^ 4 * ((1 + Lam * h) ^ k - 1)).
  { destruct (run_track lm g q Hq (fun j mdj => forall i, (i < n)%nat -> Rabs (opinion_of mdj i - y i (INR j * h)) <= C * h ^ 4 * ((1 + Lam * h) ^ j - 1)) md s k md' s' Hr) as [H _]; auto.
    - intros i Hi. change (INR 0) with 0. rewrite Rmult_0_l. destruct (HI i Hi) as (_ & -> & _). rewrite Rminus_diag_eq, Rabs_R0 by auto. cbn [pow]. lra.
    - intros j mdj sj mdj' sj' Hj Ej (F1 & F2 & F3 & F4 & F5) E1 Ej' Q i Hi.
      destruct (step_stages lm g q Htanh Hq mdj mdj' sj sj' F1 E1) as (y2 & y3 & y4 & HS). rewrite F2, F3, En in HS. fold h in HS.
      assert (GR : forall u v, (u < n)%nat -> social_pull (ad_set md) (reluctance_of mdj u) (row (ad_net mdj') u) v - v u = rhs kap al W u v).
      { intros u v Hu. destruct (HI u Hu) as (Ku & _ & Ru). rewrite (Ru (S j) mdj' sj' ltac:(lia) Ej'), F4. unfold social_pull, rhs. rewrite <- Ku, Ha. ring. }
      set (e := C * h ^ 4 * ((1 + Lam * h) ^ j - 1)) in *.
      assert (h4 : 0 <= C * h ^ 4) by (apply Rmult_le_pos; auto; apply pow_le; lra).
      assert (He : 0 <= e). { unfold e. assert (1 <= (1 + Lam * h) ^ j) by (apply pow_R1_Rle; nra). apply Rmult_le_pos; lra. }
      assert (Tj : INR j * h + h <= T). { apply Rle_trans with (INR k * h); auto. replace (INR j * h + h) with ((INR j + 1) * h) by ring. rewrite <- S_INR. apply Rmult_le_compat_r; [lra|]. apply le_INR. lia. }
      assert (T0 : 0 <= INR j * h) by (apply Rmult_le_pos; [apply pos_INR|lra]).
      assert (HS' : forall u, (u < n)%nat -> y2 u = opinion_of mdj u + h / 2 * rhs kap al W u (opinion_of mdj) /\ y3 u = opinion_of mdj u + h / 2 * rhs kap al W u y2 /\ y4 u = opinion_of mdj u + h * rhs kap al W u y3).
      { intros u Hu. destruct (HS u Hu) as (A2 & A3 & A4 & _). rewrite (GR u (opinion_of mdj) Hu) in A2. rewrite (GR u y2 Hu) in A3. rewrite (GR u y3 Hu) in A4. auto. }
      pose proof (HN (INR j * h) h (opinion_of mdj) y2 y3 y4 e T0 Hh Tj He Q HS' i Hi) as R1.
      destruct (HS i Hi) as (_ & _ & _ & A5 & _). specialize (A5 ltac:(rewrite Hb; lia)). rewrite (GR i (opinion_of mdj) Hi), (GR i y2 Hi), (GR i y3 Hi), (GR i y4 Hi) in A5. rewrite A5.
      rewrite S_INR. replace ((INR j + 1) * h) with (INR j * h + h) by ring. eapply Rle_trans; [exact R1|]. unfold e. cbn [pow]. set (p := (1 + Lam * h) ^ j).
      replace (C * (h * (h * (h * (h * 1)))) * ((1 + Lam * h) * p - 1)) with ((1 + Lam * h) * (C * h ^ 4 * (p - 1)) + C * h ^ 4 * (Lam * h)) by ring.
      replace (C * (h * (h * (h * (h * (h * 1)))))) with (C * h ^ 4 * h) by ring.
      assert (C * h ^ 4 * h <= C * h ^ 4 * (Lam * h)) by (apply Rmult_le_compat_l; nra). unfold pow in *. lra. }
  specialize (Main i0 Hi0). eapply Rle_trans; [exact Main|]. assert (h4 : 0 <= C * h ^ 4) by (apply Rmult_le_pos; auto; apply pow_le; lra).
  replace (C * exp (Lam * Rabs T) * h ^ 4) with (C * h ^ 4 * exp (Lam * Rabs T)) by ring. apply Rmult_le_compat_l; auto.
  assert (Ex : (1 + Lam * h) ^ k <= exp (Lam * Rabs T)); [|lra].
  eapply Rle_trans; [apply power_below_exp; nra|]. pose proof (Rle_abs T).
  assert (INR k * (Lam * h) <= Lam * Rabs T) by nra. destruct (Rle_lt_or_eq_dec _ _ H0) as [Hlt| ->]; [left; now apply exp_increasing|lra].
Qed.

(** In the mean-field model without homophily: y_i' = -y_i + kap_i w sum over the others of tanh (al y_j). *)
Hypothesis Hpow : lpow RA lm = Rpow.
Theorem C102_mean_field n (kap : nat -> R) al w T (y : nat -> R -> R) : (2 <= n)%nat ->
  (forall i t, (i < n)%nat -> 0 <= t <= T ->
     derivable_pt_lim (y i) t (- y i t + kap i * (w * Rsum (map (fun j => if (j =? i)%nat then 0 else tanh (al * y j t)) (seq 0 n))))) ->
  exists C, 0 <= C /\ forall k (md : activity_model) s, ad_ready md -> n_agents (ad_net md) = n -> n_bots (ad_set md) = 0%nat ->
    mean_weights (ad_set md) = true -> homophily (ad_set md) = 0 -> Forall (fun x : R => x <= 1) (map a_activity (agents (ad_net md))) ->
    even_weight n (Z.to_nat (m (ad_set md))) (reciprocity (ad_set md)) = w ->
    alpha (ad_set md) = al -> (forall i, (i < n)%nat -> K (ad_set md) / reluctance_of md i = kap i /\ opinion_of md i = y i 0) ->
    0 < dt (ad_set md) -> INR k * dt (ad_set md) <= T ->
    exists md' s', activity_run (a:=RA) lm g q k md s = Ok (md', s') /\
      forall i, (i < n)%nat -> Rabs (opinion_of md' i - y i (INR k * dt (ad_set md))) <= C * dt (ad_set md) ^ 4.
Proof using Htanh Hq Hpow.
  intros Hn Hode. set (W := fun i => map (fun j => (j, if (j =? i)%nat then 0 else w)) (seq 0 n)).
  destruct (C102_fourth_order n kap al W T y) as (C & HC & H).
  - intros i p Hi Hp. apply in_map_iff in Hp as (j & <- & Hj). apply in_seq in Hj. cbn [fst]. lia.
  - intros i t Hi Ht. specialize (Hode i t Hi Ht). unfold W. rewrite map_map. cbn [fst snd].
    replace (Rsum (map (fun j => (if (j =? i)%nat then 0 else w) * tanh (al * y j t)) (seq 0 n))) with (w * Rsum (map (fun j => if (j =? i)%nat then 0 else tanh (al * y j t)) (seq 0 n))); [exact Hode|].
    clear. generalize (seq 0 n). intros l. induction l as [|j l IH]; cbn [map]; rewrite ?Rsum_nil, ?Rsum_cons; [ring|]. rewrite <- IH. destruct (j =? i)%nat; ring.
  - exists C. split; auto. intros k md s Hr En Hb Hm Hh Ha Hw Hal HI Hdt HT.
    destruct (activity_run_ready (a:=RA) lm g q k md s Hq Hr) as (md' & s' & E & _). exists md', s'. split; auto.
    apply (H k md md' s s'); auto. intros i Hi. destruct (HI i Hi) as (A & B). split; auto. split; auto.
    intros j mdj sj Hj Ej. destruct j as [|j]; [lia|]. pose proof Ej as Ej'. rewrite run_snoc in Ej'. apply bind_ok_inv in Ej' as ([md1 s1] & E1 & E2).
    destruct (run_track lm g q Hq (fun _ _ => True) md s j md1 s1 Hr I) as [_ (F1 & F2 & F3 & F4 & F5)]; auto.
    rewrite (even_rows lm Hpow g q Hq md1 mdj s1 sj i); auto; rewrite ?F2, ?F3, ?F5, ?En; auto. unfold W. apply map_ext. intros u. now rewrite Hw.
Qed.

(** With bots the order is one: an agent that hears one bot with opinion b > 0 lags behind the exact solution
    (x - C) exp (-t) + C, with C = K / reluctance tanh (alpha b), at time t = k dt by at least dt times a positive constant times t exp (-t). *)
Theorem C102_bots_first_order k (md : activity_model) s b : ad_ready md -> 0 < dt (ad_set md) <= 1 -> mean_weights (ad_set md) = true ->
  n_agents (ad_net md) = 2%nat -> Forall (fun x : R => x <= 1) (map a_activity (agents (ad_net md))) ->
  n_bots (ad_set md) = 1%nat -> contact_count (a:=RA) (ad_set md) 0 = 1%nat -> contact_count (a:=RA) (ad_set md) 1 = 0%nat -> reciprocity (ad_set md) = 0 ->
  nth 0 (bot_opinion (ad_set md)) 0 = b -> opinion_of md 0 = b -> 0 < b ->
  let kap := K (ad_set md) / reluctance_of md 1 in let C := kap * tanh (alpha (ad_set md) * b) in
  0 < kap -> 0 < alpha (ad_set md) -> opinion_of md 1 <= C ->
  let v := alpha (ad_set md) * b / 2 in let c := / 6 * kap * (v / (1 + v)) * (1 - tanh (alpha (ad_set md) * b) * tanh (alpha (ad_set md) * b)) in
  let t := INR k * dt (ad_set md) in
  0 < c /\ exists md' s', activity_run (a:=RA) lm g q k md s = Ok (md', s') /\
    opinion_of md' 1 <= ((opinion_of md 1 - C) * exp (- t) + C) - dt (ad_set md) * (c * (t * exp (- t))).
Proof using Htanh Hq Hpow.
  intros Hr Hdt Hm HL Ha Hnb H0 H1 Hrc Hbo Hob Hbp kap C Hkap Hal HxC v c t.
  assert (v0 : 0 < v) by (unfold v; assert (0 < alpha (ad_set md) * b) by (now apply Rmult_lt_0_compat); lra).
  assert (vv : 0 < v / (1 + v)) by (apply Rdiv_lt_0_compat; lra).
  assert (t1 : 0 < 1 - tanh (alpha (ad_set md) * b) * tanh (alpha (ad_set md) * b)) by apply tanh_factor.
  assert (c0 : 0 < c). { unfold c. apply Rmult_lt_0_compat; auto. apply Rmult_lt_0_compat; auto. lra. }
  split; auto.
  destruct (activity_run_ready (a:=RA) lm g q k md s Hq Hr) as (md' & s' & E & _). exists md', s'. split; auto.
  set (h := (dt (ad_set md) : R)) in *.
  destruct (mixture_pos h Hdt) as (d0 & m1 & m2 & m3 & m4 & _).
  assert (d1 : decay h <= 1). { pose proof (mixture_sum h). lra. }
  assert (Main : opinion_of md' 0 = b /\ opinion_of md' 1 <= C + (opinion_of md 1 - C) * decay h ^ k - c * h ^ 2 * (INR k * decay h ^ k)).
  { destruct (run_track lm g q Hq (fun j mdj => opinion_of mdj 0 = b /\ opinion_of mdj 1 <= C + (opinion_of md 1 - C) * decay h ^ j - c * h ^ 2 * (INR j * decay h ^ j)) md s k md' s' Hr) as [H _]; auto.
    - split; auto. cbn [INR pow]. lra.
    - intros j mdj sj mdj' sj' Hj Ej (F1 & F2 & F3 & F4 & F5) E1 Ej' (Q0 & Q1).
      destruct (step_stages lm g q Htanh Hq mdj mdj' sj sj' F1 E1) as (y2 & y3 & y4 & HS). rewrite F2, F3, HL in HS. fold h in HS.
      destruct (two_rows lm g q Hq Hpow mdj mdj' sj sj' F1 ltac:(now rewrite F2) ltac:(now rewrite F3) ltac:(now rewrite F5) ltac:(rewrite F2; lia) ltac:(rewrite F2; lia) E1) as (R0 & R1).
      rewrite F2, H0, H1, Hrc in R0, R1. cbn [INR] in R0, R1.
      assert (S0 : forall u, social_pull (ad_set md) (reluctance_of mdj 0) (row (ad_net mdj') 0) u = 0).
      { intros u. rewrite R0. unfold social_pull. cbn [map fst snd]. rewrite !Rsum_cons, Rsum_nil. ring. }
      assert (S1 : forall u, social_pull (ad_set md) (reluctance_of mdj 1) (row (ad_net mdj') 1) u = kap * tanh (alpha (ad_set md) * u 0%nat)).
      { intros u. rewrite R1, F4. unfold social_pull, kap. cbn [map fst snd]. rewrite !Rsum_cons, Rsum_nil. ring. }
      destruct (HS 0%nat ltac:(lia)) as (A2 & A3 & A4 & _ & A6). rewrite !S0 in A2, A3, A4. specialize (A6 ltac:(lia)). rewrite Hbo in A6. rewrite Q0 in A2, A3, A4. split; [exact A6|].
      destruct (HS 1%nat ltac:(lia)) as (B2 & B3 & B4 & B5 & _). specialize (B5 ltac:(lia)). rewrite B5, (mixture _ _ _ _ _ _ _ _ _ B2 B3 B4), !S1, Q0.
      set (be := alpha (ad_set md)) in *.
      assert (hb : 0 < h * b) by (apply Rmult_lt_0_compat; lra).
      assert (Y2 : y2 0%nat = b - h / 2 * b) by (rewrite A2; ring).
      assert (Y3 : 0 <= y3 0%nat <= b). { rewrite A3, Y2. split; nra. }
      assert (Y4 : y4 0%nat <= b). { rewrite A4. nra. }
      assert (TH : forall z, z <= b -> kap * tanh (be * z) <= C).
      { intros z Hz. unfold C. apply Rmult_le_compat_l; [lra|]. apply tanh_monotone. nra. }
      assert (TH2 : kap * tanh (be * y2 0%nat) <= C - kap * (h * (v / (1 + v)) * (1 - tanh (be * b) * tanh (be * b)))).
      { unfold C. rewrite <- Rmult_minus_distr_l. apply Rmult_le_compat_l; [lra|]. rewrite Y2.
        pose proof (tanh_minus (be * b) (be * (b - h / 2 * b))) as TM. replace (be * b - be * (b - h / 2 * b)) with (h * v) in TM by (unfold v; field).
        assert (hv : 0 < h * v) by (apply Rmult_lt_0_compat; lra).
        assert (G1 : h * (v / (1 + v)) <= tanh (h * v)).
        { eapply Rle_trans; [|apply tanh_ge; lra]. replace (h * (v / (1 + v))) with (h * v * / (1 + v)) by (field; lra). unfold Rdiv. apply Rmult_le_compat_l; [lra|].
          apply Rinv_le_contravar; [lra|]. nra. }
        assert (G2 : tanh (be * (b - h / 2 * b)) <= tanh (be * b)) by (apply tanh_monotone; nra).
        assert (G3 : 0 <= tanh (be * b)) by (apply tanh_nonneg; nra).
        assert (G4 : 1 - tanh (be * b) * tanh (be * b) <= 1 - tanh (be * b) * tanh (be * (b - h / 2 * b))) by nra.
        assert (G5 : h * (v / (1 + v)) * (1 - tanh (be * b) * tanh (be * b)) <= tanh (h * v) * (1 - tanh (be * b) * tanh (be * (b - h / 2 * b)))).
        { apply Rmult_le_compat; try lra. apply Rmult_le_pos; lra. }
        lra. }
      pose proof (TH _ (proj2 Y3)) as T3. pose proof (TH _ Y4) as T4.
      assert (M2 : h / 6 <= mix2 h). { unfold mix2. nra. }
      pose proof (mixture_sum h) as MS.
      set (gap := kap * (h * (v / (1 + v)) * (1 - tanh (be * b) * tanh (be * b)))) in *.
      assert (Ec : c * h ^ 2 = h / 6 * gap) by (unfold c, gap; field; lra).
      assert (g0 : 0 <= gap). { unfold gap. apply Rmult_le_pos; [lra|]. apply Rmult_le_pos; [|lra]. apply Rmult_le_pos; lra. }
      fold C.
      assert (P2 : mix2 h * (kap * tanh (be * y2 0%nat)) <= mix2 h * C - c * h ^ 2).
      { rewrite Ec. apply Rle_trans with (mix2 h * (C - gap)); [apply Rmult_le_compat_l; auto|]. assert (h / 6 * gap <= mix2 h * gap) by (apply Rmult_le_compat_r; auto). lra. }
      assert (P3 : mix3 h * (kap * tanh (be * y3 0%nat)) <= mix3 h * C) by (apply Rmult_le_compat_l; auto).
      assert (P4 : mix4 h * (kap * tanh (be * y4 0%nat)) <= mix4 h * C) by (apply Rmult_le_compat_l; auto).
      assert (P1 : decay h * opinion_of mdj 1 <= decay h * (C + (opinion_of md 1 - C) * decay h ^ j - c * h ^ 2 * (INR j * decay h ^ j))) by (apply Rmult_le_compat_l; [lra|exact Q1]).
      assert (pj : decay h ^ S j <= 1). { rewrite <- (pow1 (S j)). apply pow_incr. lra. }
      assert (ch : 0 <= c * h ^ 2) by (apply Rmult_le_pos; [lra|apply pow_le; lra]).
      assert (P5 : c * h ^ 2 * decay h ^ S j <= c * h ^ 2) by nra.
      rewrite S_INR. cbn [pow] in *. set (p := decay h ^ j) in *.
      assert (MC : mix1 h * C + mix2 h * C + mix3 h * C + mix4 h * C = (1 - decay h) * C) by (replace (1 - decay h) with (mix1 h + mix2 h + mix3 h + mix4 h) by lra; ring).
      fold C. nra. }
  destruct Main as (_ & Main). eapply Rle_trans; [exact Main|].
  assert (De : exp (- t) <= decay h ^ k).
  { unfold t. rewrite <- exp_pow. apply pow_incr. split; [left; apply exp_pos|]. apply exp_alternating. lra. }
  assert (X1 : (opinion_of md 1 - C) * decay h ^ k <= (opinion_of md 1 - C) * exp (- t)) by nra.
  assert (X2 : c * h ^ 2 * (INR k * exp (- t)) <= c * h ^ 2 * (INR k * decay h ^ k)).
  { apply Rmult_le_compat_l; [apply Rmult_le_pos; [lra|apply pow_le; lra]|]. apply Rmult_le_compat_l; [apply pos_INR|exact De]. }
  replace (h * (c * (t * exp (- t)))) with (c * h ^ 2 * (INR k * exp (- t))) by (unfold t; ring). lra.
Qed.
End Order.

(** ** Instances *)
(** Two agents with opinions 2 and -1; controversialness 0, so that the exact solution is x e^-t. *)
Definition fading (h : R) : ad_model (a:=RA) (activity_agent (F RA)) := complete_model (field_settings h 1 0 (1/2) 2 0 [] []) [mkActivity 2 1 1; mkActivity (-1) (1/2) 1].
Example C102_fading_instance T : exists C, 0 <= C /\ forall k h, 0 < h -> INR k * h <= T ->
  exists md' s', activity_run (a:=RA) real_libm mid_rng (list_pq RA) k (fading h) 0%nat = Ok (md', s') /\
    Rabs (opinion_of md' 0 - 2 * exp (- (INR k * h))) <= C * h ^ 4 /\ Rabs (opinion_of md' 1 - -1 * exp (- (INR k * h))) <= C * h ^ 4.
Proof.
  set (y := fun (i : nat) (t : R) => (if (i =? 0)%nat then 2 else -1) * exp (- t)).
  destruct (C102_mean_field real_libm mid_rng (list_pq RA) (fun _ => eq_refl) (list_pq_bag RA) eq_refl 2 (fun _ => 2) 0 1 T y (le_n 2)) as (C & HC & H).
  - intros i t Hi Ht.
    replace (- y i t + _) with ((if (i =? 0)%nat then 2 else -1) * (exp (- t) * (- 1))).
    2:{ assert (Z : forall l, Rsum (map (fun j => if (j =? i)%nat then 0 else tanh (0 * y j t)) l) = 0).
        { induction l as [|u l IH]; cbn [map]; rewrite ?Rsum_nil, ?Rsum_cons; auto. rewrite IH, Rmult_0_l, tanh_0. destruct (u =? i)%nat; lra. }
        rewrite Z. unfold y. ring. }
    apply (derivable_pt_lim_scal (fun t => exp (- t))). apply (derivable_pt_lim_comp Ropp exp); [|apply derivable_pt_lim_exp].
    apply (derivable_pt_lim_opp id), derivable_pt_lim_id.
  - exists C. split; auto. intros k h Hh HT.
    assert (Ew : even_weight 2 1 (1/2) = 1).
    { unfold even_weight, contact_chance. cbn [seq map]. rewrite Rsum_cons, Rsum_nil. cbn [INR Nat.add pow]. field. }
    assert (Hr : ad_ready (fading h)) by (apply complete_ready; [apply field_fit; cbn; try lia; constructor|cbn; lia|cbn; lia]).
    destruct (H k (fading h) 0%nat Hr eq_refl eq_refl eq_refl eq_refl ltac:(repeat constructor; cbn; lra) Ew eq_refl) as (md' & s' & E & B); auto.
    + intros i Hi. destruct i as [|[|i]]; [| |lia]; (split; [|unfold y; cbn [Nat.eqb]; rewrite Ropp_0, exp_0]).
      * change (K (ad_set (fading h)) / reluctance_of (fading h) 0) with (2 / 1). field.
      * change (opinion_of (fading h) 0) with 2. ring.
      * change (K (ad_set (fading h)) / reluctance_of (fading h) 1) with (2 / 1). field.
      * change (opinion_of (fading h) 1) with (-1). ring.
    + exists md', s'. split; auto. split; [exact (B 0%nat ltac:(lia))|exact (B 1%nat ltac:(lia))].
Qed.

(** A bot with opinion 2 and an agent that starts at -1 and hears it; time step h. *)
Definition led (h : R) : ad_model (a:=RA) (activity_agent (F RA)) := complete_model (field_settings h 0 (3/2) 0 2 1 [1%Z] [2]) [mkActivity 2 1 1; mkActivity (-1) 1 (3/2)].
Lemma led_ready h : ad_ready (led h).
Proof. apply complete_ready; [apply field_fit; cbn; try lia; constructor; [lia|constructor]|cbn; lia|cbn; lia]. Qed.
Example C102_led_instance k h : 0 < h <= 1 -> let C := 2 / (3/2) * tanh (3/2 * 2) in let t := INR k * h in
  exists c, 0 < c /\ exists md' s', activity_run (a:=RA) real_libm mid_rng (list_pq RA) k (led h) 0%nat = Ok (md', s') /\
    opinion_of md' 1 <= ((-1 - C) * exp (- t) + C) - h * (c * (t * exp (- t))).
Proof.
  intros Hh C t. assert (HC : -1 <= C) by (unfold C; pose proof (tanh_nonneg (3/2*2) ltac:(lra)); nra).
  destruct (C102_bots_first_order real_libm mid_rng (list_pq RA) (fun _ => eq_refl) (list_pq_bag RA) eq_refl k (led h) 0%nat 2 (led_ready h) Hh eq_refl eq_refl
    ltac:(repeat constructor; cbn; lra) eq_refl eq_refl eq_refl eq_refl eq_refl eq_refl ltac:(lra)) as (c0 & md' & s' & E & B).
  - change (0 < 2 / (3 / 2)). lra.
  - change (0 < 3 / 2). lra.
  - exact HC.
  - eexists. split; [exact c0|]. exists md', s'. split; [exact E|exact B].
Qed.

(** "Also with bots the error is of second order" is wrong: the exact solution with the bot at 2 is C - (1 + C) e^-t. *)
Theorem C102_second_order_with_bots_refuted : let C := 2 / (3/2) * tanh (3/2 * 2) in
  ~ (exists B, forall k md' s', (1 <= k)%nat -> activity_run (a:=RA) real_libm mid_rng (list_pq RA) k (led (/ INR k)) 0%nat = Ok (md', s') ->
       Rabs (opinion_of md' 1 - ((-1 - C) * exp (- (1)) + C)) <= B * (/ INR k) ^ 2).
Proof.
  intros C (B & Claim). assert (HC : -1 <= C) by (unfold C; pose proof (tanh_nonneg (3/2*2) ltac:(lra)); nra).
  set (c := / 6 * (2 / (3/2)) * ((3/2 * 2 / 2) / (1 + 3/2 * 2 / 2)) * (1 - tanh (3/2 * 2) * tanh (3/2 * 2))).
  assert (Low : forall k, (1 <= k)%nat -> 0 < c /\ c * exp (- (1)) * / INR k <= B * (/ INR k) ^ 2).
  { intros k Hk. assert (k1 : 1 <= INR k) by (change 1 with (INR 1); now apply le_INR).
    assert (Hh : 0 < / INR k <= 1) by (split; [apply Rinv_0_lt_compat; lra|rewrite <- Rinv_1; apply Rinv_le_contravar; lra]).
    destruct (C102_bots_first_order real_libm mid_rng (list_pq RA) (fun _ => eq_refl) (list_pq_bag RA) eq_refl k (led (/ INR k)) 0%nat 2 (led_ready _) Hh eq_refl eq_refl
      ltac:(repeat constructor; cbn; lra) eq_refl eq_refl eq_refl eq_refl eq_refl eq_refl ltac:(lra)) as (c0 & md' & s' & E & D).
    - change (0 < 2 / (3 / 2)). lra.
    - change (0 < 3 / 2). lra.
    - exact HC.
    - change (0 < c) in c0. split; [exact c0|].
      change (opinion_of md' 1 <= ((-1 - C) * exp (- (INR k * / INR k)) + C) - / INR k * (c * (INR k * / INR k * exp (- (INR k * / INR k))))) in D.
      rewrite Rinv_r, Rmult_1_l in D by lra. specialize (Claim k md' s' Hk E).
      assert (A := Rle_abs (- (opinion_of md' 1 - ((-1 - C) * exp (- (1)) + C)))). rewrite Rabs_Ropp in A. lra. }
  assert (e0 : 0 < c * exp (- (1))) by (apply Rmult_lt_0_compat; [apply (Low 1%nat); lia|apply exp_pos]).
  assert (Un : exists k, B / (c * exp (- (1))) < INR k).
  { set (z := B / (c * exp (- (1)))). exists (Z.to_nat (up (Rabs z))). destruct (archimed (Rabs z)) as (A & _). pose proof (Rabs_pos z). pose proof (Rle_abs z).
    rewrite INR_IZR_INZ, Z2Nat.id; [lra|]. apply le_IZR. lra. }
  destruct Un as (k & Hk).
  destruct (Low (S k) ltac:(lia)) as (_ & L). assert (k1 : 0 < INR (S k)) by (apply lt_0_INR; lia). assert (k2 : INR k <= INR (S k)) by (apply le_INR; lia).
  assert (L2 : c * exp (- (1)) * INR (S k) <= B).
  { apply (Rmult_le_compat_r (INR (S k) ^ 2)) in L; [|apply pow_le; lra]. replace (c * exp (- (1)) * / INR (S k) * INR (S k) ^ 2) with (c * exp (- (1)) * INR (S k)) in L by (field; lra).
    replace (B * (/ INR (S k)) ^ 2 * INR (S k) ^ 2) with B in L by (field; lra). exact L. }
  assert (L3 : B < c * exp (- (1)) * INR k). { apply (Rmult_lt_compat_l (c * exp (- (1)))) in Hk; auto. replace (c * exp (- (1)) * (B / (c * exp (- (1))))) with B in Hk; [lra|]. set (z := c * exp (- (1))) in *. field. lra. }
  assert (c * exp (- (1)) * INR k <= c * exp (- (1)) * INR (S k)) by (apply Rmult_le_compat_l; lra). lra.
Qed.
Print Assumptions C102_fourth_order.
Print Assumptions C102_mean_field.
Print Assumptions C102_bots_first_order.
Print Assumptions C102_second_order_with_bots_refuted.
