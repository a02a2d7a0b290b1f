(** Property theorem C103: without bots the inertial model integrates its differential equations with second order. *)
From Verif Require Import Base BaseFacts Arith64 RFacts MRandom SRandom PRandom WRandom MDist MNetwork SNetwork PNetwork PNetwork2
  MAgents MDeGroot MActivity SActivity PActStep PActNet PActIter PActMean PActIter2 PActInit PActThm PActSym PActReal PActMean2
  TActivity TActivityR TMean TNetGen SRelax PRelax PRelax2 PRelax3 PTanh WRelax TRelax SInertia PInertia POscillator PInertia2 PInertia3 TConsensus TInertia SOde TOde SOde2 TOde2 PTaylor PRk4 PVerlet.
From Coq Require Import Reals Lra Psatz.
Local Open Scope R_scope.

Section Order.
Context (lm : Libm RA) (g : Rng RA) (q : PQ RA).
Hypothesis Htanh : forall x : R, ltanh RA lm x = tanh x.
Hypothesis Hq : pq_bag q.
Notation time_step im := (dt (ad_set (im_ad im))).
Notation friction im := (friction_coefficient im).

(** C103. Fix the number of agents, the couplings kap_i = K / reluctance_i, the controversialness al, the friction mu >= 0, the rows W
    of the network and a solution (y, z) of y_i' = z_i, z_i' = -y_i - mu z_i + kap_i sum_j w_ij tanh (al y_j) on [0, T]. There is a
    constant C such that for every time step and every run that stays within [0, T], opinions and velocities differ from the
    solution by at most C dt^2. *)
Theorem C103_second_order n (kap : nat -> R) al mu (W : nat -> list (nat * R)) T (y z : nat -> R -> R) : 0 <= mu ->
  (forall i p, (i < n)%nat -> In p (W i) -> (fst p < n)%nat) ->
  (forall i t, (i < n)%nat -> 0 <= t <= T -> derivable_pt_lim (y i) t (z i t) /\
     derivable_pt_lim (z i) t (- y i t - mu * z i t + kap i * Rsum (map (fun p => snd p * tanh (al * y (fst p) t)) (W i)))) ->
  exists C, 0 <= C /\ forall k (im im' : inertial) s s', ad_ready (im_ad im) -> n_agents (ad_net (im_ad im)) = n -> n_bots (ad_set (im_ad im)) = 0%nat ->
    alpha (ad_set (im_ad im)) = al -> friction im = mu ->
    (forall i, (i < n)%nat -> K (ad_set (im_ad im)) / inertial_reluctance im i = kap i /\ position_of im i = y i 0 /\ velocity_of im i = z i 0 /\
       inertial_rows lm g q k im s i (fun r => r = W i)) ->
    inertial_run (a:=RA) lm g q k im s = Ok (im', s') -> 0 < time_step im -> INR k * time_step im <= T ->
    forall i, (i < n)%nat -> Rabs (position_of im' i - y i (INR k * time_step im)) <= C * time_step im ^ 2 /\
                             Rabs (velocity_of im' i - z i (INR k * time_step im)) <= C * time_step im ^ 2.
Proof using Htanh Hq.
  intros Hmu HW Hode.
  assert (Hbd : forall i, (i < n)%nat -> bounded_on T (y i) /\ bounded_on T (z i)).
  { intros i Hi. set (P := Rabs (kap i) * Rsum (map (fun p => Rabs (snd p)) (W i))).
    assert (SP : forall l : list (nat * R), 0 <= Rsum (map (fun p => Rabs (snd p)) l)).
    { induction l as [|u l IH]; cbn [map]; rewrite ?Rsum_nil, ?Rsum_cons; [lra|]. pose proof (Rabs_pos (snd u)). lra. }
    assert (P0 : 0 <= P) by (apply Rmult_le_pos; [apply Rabs_pos|apply SP]).
    set (X := Rabs (y i 0) + Rabs (z i 0)). assert (X0 : 0 <= X) by (unfold X; pose proof (Rabs_pos (y i 0)); pose proof (Rabs_pos (z i 0)); lra).
    assert (B : forall t, 0 <= t <= T -> Rabs (y i t) <= exp (T / 2) * (2 * X + P) /\ Rabs (z i t) <= exp (T / 2) * (2 * X + P)).
    { apply (oscillator_bounded (y i) (z i) (fun t => kap i * Rsum (map (fun p => snd p * tanh (al * y (fst p) t)) (W i))) false mu P T X Hmu P0 X0).
      - unfold X. pose proof (Rabs_pos (z i 0)). lra.
      - unfold X. pose proof (Rabs_pos (y i 0)). lra.
      - intros t Ht. now apply Hode.
      - intros t _. rewrite Rabs_mult. apply Rmult_le_compat_l; [apply Rabs_pos|]. generalize (W i). clear. induction l as [|u l IH]; cbn [map]; rewrite ?Rsum_nil, ?Rsum_cons; [rewrite Rabs_R0; lra|].
        eapply Rle_trans; [apply Rabs_triang|]. rewrite Rabs_mult. pose proof (tanh_abs_lt_1 (al * y (fst u) t)). pose proof (Rabs_pos (snd u)). nra. }
    assert (M0 : 0 <= exp (T / 2) * (2 * X + P)) by (apply Rmult_le_pos; [left; apply exp_pos|lra]).
    split; exists (exp (T / 2) * (2 * X + P)); (split; [exact M0|]); intros t Ht; now apply B. }
  destruct (verlet_near T n kap al mu W y z HW) as (Lam & C & HL & HC & HN); auto.
  { intros i t Hi Ht. destruct (Hode i t Hi Ht) as (A & B). split; auto. replace (rhs kap al W i (fun j => y j t) - mu * z i t) with (- y i t - mu * z i t + kap i * Rsum (map (fun p => snd p * tanh (al * y (fst p) t)) (W i))) by (unfold rhs; ring). exact B. }
  exists (C * exp (Lam * Rabs T)). split; [apply Rmult_le_pos; auto; left; apply exp_pos|].
  intros k im im' s s' Hr En Hb Ha Hf HI E Hh HT i0 Hi0. set (h := (time_step im : R)) in *.
  assert (Main : forall i, (i < n)%nat -> Rabs (position_of im' i - y i (INR k * h)) <= C * h ^ 2 * ((1 + Lam * h) ^ k - 1) /\ Rabs (velocity_of im' i - z i (INR k * h)) <= C * h ^ 2 * ((1 + Lam * h) ^ k - 1)).
  { destruct (inertial_track lm g q Hq (fun j imj => forall i, (i < n)%nat -> Rabs (position_of imj i - y i (INR j * h)) <= C * h ^ 2 * ((1 + Lam * h) ^ j - 1) /\ Rabs (velocity_of imj i - z i (INR j * h)) <= C * h ^ 2 * ((1 + Lam * h) ^ j - 1)) im s k im' s' Hr) as [H _]; auto.
    - intros i Hi. change (INR 0) with 0. rewrite Rmult_0_l. destruct (HI i Hi) as (_ & -> & -> & _). rewrite !Rminus_diag_eq, Rabs_R0 by auto. cbn [pow]. lra.
    - intros j imj sj imj' sj' Hj Ej (F1 & F2 & F3 & F4 & F5 & F6) E1 Ej' Q.
      destruct (inertial_components lm g q Htanh Hq imj imj' sj sj' F1 E1) as (moved & HS).
      { rewrite F2, F3, Hf. fold h. assert (0 <= mu * h) by (apply Rmult_le_pos; lra). lra. }
      rewrite F2, F3, F4, En, Hf in HS. fold h in HS.
      assert (GP : forall u v, (u < n)%nat -> social_pull (ad_set (im_ad im)) (inertial_reluctance imj u) (row (ad_net (im_ad imj')) u) v = pull kap al W u v).
      { intros u v Hu. destruct (HI u Hu) as (Ku & _ & _ & Ru). rewrite (Ru (S j) imj' sj' ltac:(lia) Ej'), F5 by (rewrite En; exact Hu). unfold social_pull, pull. rewrite <- Ku, Ha. ring. }
      set (e := C * h ^ 2 * ((1 + Lam * h) ^ j - 1)) in *.
      assert (h2 : 0 <= C * h ^ 2) by (apply Rmult_le_pos; auto; apply pow_le; lra).
      assert (He : 0 <= e). { unfold e. assert (1 <= (1 + Lam * h) ^ j) by (apply pow_R1_Rle; nra). apply Rmult_le_pos; lra. }
      assert (Tj : INR j * h + h <= T). { apply Rle_trans with (INR k * h); auto. replace (INR j * h + h) with ((INR j + 1) * h) by ring. rewrite <- S_INR. apply Rmult_le_compat_r; [lra|]. apply le_INR. lia. }
      assert (T0 : 0 <= INR j * h) by (apply Rmult_le_pos; [apply pos_INR|lra]).
      assert (HV : forall u, (u < n)%nat -> verlet h mu (pull kap al W u (position_of imj)) (pull kap al W u moved) (position_of imj u) (velocity_of imj u) (moved u) (velocity_of imj' u)).
      { intros u Hu. destruct (HS u Hu) as (V & _). rewrite !GP in V by exact Hu. exact V. }
      intros i Hi. destruct (HN (INR j * h) h (position_of imj) (velocity_of imj) moved (velocity_of imj') e T0 Hh Tj He Q HV i Hi) as (R1 & R2).
      destruct (HS i Hi) as (_ & A5 & _). rewrite (A5 ltac:(rewrite Hb; lia)).
      assert (G : (1 + Lam * h) * e + C * h ^ 3 <= C * h ^ 2 * ((1 + Lam * h) ^ S j - 1)).
      { unfold e. cbn [pow]. set (p := (1 + Lam * h) ^ j).
        replace (C * (h * (h * 1)) * ((1 + Lam * h) * p - 1)) with ((1 + Lam * h) * (C * h ^ 2 * (p - 1)) + C * h ^ 2 * (Lam * h)) by ring.
        replace (C * (h * (h * (h * 1)))) with (C * h ^ 2 * h) by ring.
        assert (C * h ^ 2 * h <= C * h ^ 2 * (Lam * h)) by (apply Rmult_le_compat_l; nra). unfold pow in *. lra. }
      rewrite S_INR. replace ((INR j + 1) * h) with (INR j * h + h) by ring. split; (eapply Rle_trans; [eassumption|exact G]). }
  assert (Fin : C * h ^ 2 * ((1 + Lam * h) ^ k - 1) <= C * exp (Lam * Rabs T) * h ^ 2).
  { assert (h2 : 0 <= C * h ^ 2) by (apply Rmult_le_pos; auto; apply pow_le; lra).
    replace (C * exp (Lam * Rabs T) * h ^ 2) with (C * h ^ 2 * exp (Lam * Rabs T)) by ring. apply Rmult_le_compat_l; auto.
    assert (Ex : (1 + Lam * h) ^ k <= exp (Lam * Rabs T)); [|lra].
    eapply Rle_trans; [apply power_below_exp; nra|]. pose proof (Rle_abs T).
    assert (INR k * (Lam * h) <= Lam * Rabs T) by nra. destruct (Rle_lt_or_eq_dec _ _ H0) as [Hlt| ->]; [left; now apply exp_increasing|lra]. }
  destruct (Main i0 Hi0) as (A & B). split; (eapply Rle_trans; [eassumption|exact Fin]).
Qed.

(** In the mean-field model without homophily: z_i' = -y_i - mu z_i + kap_i w sum over the others of tanh (al y_j). *)
Hypothesis Hpow : lpow RA lm = Rpow.
Theorem C103_mean_field n (kap : nat -> R) al mu w T (y z : nat -> R -> R) : 0 <= mu -> (2 <= n)%nat ->
  (forall i t, (i < n)%nat -> 0 <= t <= T -> derivable_pt_lim (y i) t (z i t) /\
     derivable_pt_lim (z i) t (- y i t - mu * z i t + kap i * (w * Rsum (map (fun j => if (j =? i)%nat then 0 else tanh (al * y j t)) (seq 0 n))))) ->
  exists C, 0 <= C /\ forall k (im : inertial) s, ad_ready (im_ad im) -> n_agents (ad_net (im_ad im)) = n -> n_bots (ad_set (im_ad im)) = 0%nat ->
    mean_weights (ad_set (im_ad im)) = true -> homophily (ad_set (im_ad im)) = 0 -> Forall (fun x : R => x <= 1) (map i_activity (agents (ad_net (im_ad im)))) ->
    even_weight n (Z.to_nat (m (ad_set (im_ad im)))) (reciprocity (ad_set (im_ad im))) = w ->
    alpha (ad_set (im_ad im)) = al -> friction im = mu ->
    (forall i, (i < n)%nat -> K (ad_set (im_ad im)) / inertial_reluctance im i = kap i /\ position_of im i = y i 0 /\ velocity_of im i = z i 0) ->
    0 < time_step im -> INR k * time_step im <= T ->
    exists im' s', inertial_run (a:=RA) lm g q k im s = Ok (im', s') /\
      forall i, (i < n)%nat -> Rabs (position_of im' i - y i (INR k * time_step im)) <= C * time_step im ^ 2 /\
                               Rabs (velocity_of im' i - z i (INR k * time_step im)) <= C * time_step im ^ 2.
Proof using Htanh Hq Hpow.
  intros Hmu Hn Hode. set (W := fun i => map (fun j => (j, if (j =? i)%nat then 0 else w)) (seq 0 n)).
  destruct (C103_second_order n kap al mu W T y z Hmu) as (C & HC & H).
  - intros i p Hi Hp. apply in_map_iff in Hp as (j & <- & Hj). apply in_seq in Hj. cbn [fst]. lia.
  - intros i t Hi Ht. specialize (Hode i t Hi Ht). unfold W. rewrite map_map. cbn [fst snd].
    replace (Rsum (map (fun j => (if (j =? i)%nat then 0 else w) * tanh (al * y j t)) (seq 0 n))) with (w * Rsum (map (fun j => if (j =? i)%nat then 0 else tanh (al * y j t)) (seq 0 n))); [exact Hode|].
    clear. generalize (seq 0 n). intros l. induction l as [|j l IH]; cbn [map]; rewrite ?Rsum_nil, ?Rsum_cons; [ring|]. rewrite <- IH. destruct (j =? i)%nat; ring.
  - exists C. split; auto. intros k im s Hr En Hb Hm Hh Ha Hw Hal Hf HI Hdt HT.
    destruct (inertial_run_ready lm g q Hq k im s Hr) as (im' & s' & E). exists im', s'. split; auto.
    apply (H k im im' s s'); auto. intros i Hi. destruct (HI i Hi) as (A & B & D). split; [exact A|]. split; [exact B|]. split; [exact D|].
    intros j imj sj Hj Ej. destruct j as [|j]; [lia|]. pose proof Ej as Ej'. rewrite inertial_snoc in Ej'. apply bind_ok_inv in Ej' as ([im1 s1] & E1 & E2).
    destruct (inertial_track lm g q Hq (fun _ _ => True) im s j im1 s1 Hr I) as [_ (F1 & F2 & F3 & F4 & F5 & F6)]; auto.
    rewrite (inertial_even_rows lm Hpow g q Hq im1 imj s1 sj i); auto; rewrite ?F2, ?F4, ?F6, ?En; auto. unfold W. apply map_ext. intros u. now rewrite Hw.
Qed.
End Order.

(** ** Instance: two agents starting at rest at 2 and -1 with controversialness 0; the exact solution is the damped oscillation. *)
Definition swinging (h : R) : inertial := complete_inertial (field_settings h 1 0 (1/2) 2 0 [] []) (1/2) [mkInertial 2 1 1 0; mkInertial (-1) (1/2) 1 0].
Example C103_swinging_instance T : exists C, 0 <= C /\ forall k h, 0 < h -> INR k * h <= T ->
  exists im' s', inertial_run (a:=RA) real_libm mid_rng (list_pq RA) k (swinging h) 0%nat = Ok (im', s') /\
    Rabs (position_of im' 0 - underdamped (1/2) 0 2 (INR k * h)) <= C * h ^ 2 /\ Rabs (position_of im' 1 - underdamped (1/2) 0 (-1) (INR k * h)) <= C * h ^ 2.
Proof.
  destruct (C82_closed_form (1/2) 0 2 ltac:(lra) ltac:(lra)) as ((z0 & HS0 & Y0 & Z0) & _).
  destruct (C82_closed_form (1/2) 0 (-1) ltac:(lra) ltac:(lra)) as ((z1 & HS1 & Y1 & Z1) & _).
  destruct (Rlt_dec (1/2) 2) as [Lt|Lt]; [|lra].
  set (y := fun (i : nat) (t : R) => if (i =? 0)%nat then underdamped (1/2) 0 2 t else underdamped (1/2) 0 (-1) t).
  set (z := fun (i : nat) (t : R) => if (i =? 0)%nat then z0 t else z1 t).
  destruct (C103_mean_field real_libm mid_rng (list_pq RA) (fun _ => eq_refl) (list_pq_bag RA) eq_refl 2 (fun _ => 2) 0 (1/2) 1 T y z ltac:(lra) (le_n 2)) as (C & HC & H).
  - intros i t Hi Ht.
    assert (Z : forall l, Rsum (map (fun j => if (j =? i)%nat then 0 else tanh (0 * y j t)) l) = 0).
    { induction l as [|u l IH]; cbn [map]; rewrite ?Rsum_nil, ?Rsum_cons; auto. rewrite IH, Rmult_0_l, tanh_0. destruct (u =? i)%nat; lra. }
    rewrite Z. unfold y, z. destruct i as [|i]; cbn [Nat.eqb].
    + destruct (HS0 t) as (A & B). split; [exact A|]. replace (- _ - _ + _) with (- (underdamped (1/2) 0 2 t - 0) - 1/2 * z0 t) by ring. exact B.
    + destruct (HS1 t) as (A & B). split; [exact A|]. replace (- _ - _ + _) with (- (underdamped (1/2) 0 (-1) t - 0) - 1/2 * z1 t) by ring. exact B.
  - exists C. split; auto. intros k h Hh HT.
    assert (Ew : even_weight 2 1 (1/2) = 1).
    { unfold even_weight, contact_chance. cbn [seq map]. rewrite Rsum_cons, Rsum_nil. cbn [INR Nat.add pow]. field. }
    assert (Hr : ad_ready (im_ad (swinging h))) by (apply complete_inertial_ready; [apply field_fit; cbn; try lia; constructor|cbn; lia|cbn; lia]).
    destruct (H k (swinging h) 0%nat Hr eq_refl eq_refl eq_refl eq_refl ltac:(repeat constructor; cbn; lra) Ew eq_refl eq_refl) as (im' & s' & E & B); auto.
    + intros i Hi. destruct i as [|[|i]]; [| |lia]; (split; [|unfold y, z; cbn [Nat.eqb]; rewrite ?Y0, ?Y1, ?Z0, ?Z1; split; reflexivity]).
      * change (K (ad_set (im_ad (swinging h))) / inertial_reluctance (swinging h) 0) with (2 / 1). field.
      * change (K (ad_set (im_ad (swinging h))) / inertial_reluctance (swinging h) 1) with (2 / 1). field.
    + exists im', s'. split; auto. split; [exact (proj1 (B 0%nat ltac:(lia)))|exact (proj1 (B 1%nat ltac:(lia)))].
Qed.
Print Assumptions C103_second_order.
Print Assumptions C103_mean_field.
Print Assumptions C103_swinging_instance.
