(** Property theorems C81 (energy of an inertial agent that hears nobody), C82 (it follows the damped oscillator)
    and C83 (an inertial agent that hears only bots) in exact arithmetic. *)
From Verif Require Import Base BaseFacts Arith64 RFacts MRandom SRandom PRandom WRandom MDist MNetwork SNetwork PNetwork PNetwork2
  MAgents MDeGroot MActivity SActivity PActStep PActNet PActIter PActMean PActIter2 PActInit PActThm PActSym PActReal PActMean2
  TActivity TActivityR TMean TNetGen SRelax PRelax PRelax2 PTanh WRelax TRelax SInertia PInertia POscillator PInertia2 PInertia3.
From Coq Require Import Reals Lra Psatz.
Local Open Scope R_scope.

Section Inertia.
Context (lm : Libm RA) (g : Rng RA) (q : PQ RA).
Hypothesis Htanh : forall x : R, ltanh RA lm x = tanh x.
Hypothesis Hq : pq_bag q.
Notation time_step im := (dt (ad_set (im_ad im))).
Notation friction im := (friction_coefficient im).
Definition ordinary (im : inertial) (i : nat) : Prop := (n_bots (ad_set (im_ad im)) <= i < n_agents (ad_net (im_ad im)))%nat.
Definition nobody (r : list (nat * R)) : Prop := total_weight r = 0.

Lemma free_step (im im' : inertial) s s' i : ad_ready (im_ad im) -> 0 <= friction im -> 0 < time_step im ->
  inertial_iteration (a:=RA) lm g q im s = Ok (im', s') -> ordinary im i -> nobody (row (ad_net (im_ad im')) i) ->
  verlet (time_step im) (friction im) 0 0 (position_of im i) (velocity_of im i) (position_of im' i) (velocity_of im' i).
Proof using Htanh Hq.
  intros Hr Hf Hd E (Hb & Hi) Hw. 
  destruct (inertial_components lm g q Htanh Hq im im' s s' Hr E) as (moved & H).
  { revert Hf Hd. generalize (time_step im), (friction im). intros h mu Hf Hd. change R in h, mu. assert (0 <= mu * h) by (apply Rmult_le_pos; lra). lra. }
  destruct (H i Hi) as (V1 & V2 & _). rewrite (V2 Hb). rewrite !(no_pull _ _ _ _ Hw) in V1. exact V1.
Qed.

(** ** C81 *)
(** One iteration changes the energy v^2 + (1 - dt^2/4) x^2 by exactly the dissipated amount. *)
Theorem C81_energy_step (im im' : inertial) s s' i : ad_ready (im_ad im) -> 0 <= friction im -> 0 < time_step im ->
  inertial_iteration (a:=RA) lm g q im s = Ok (im', s') -> ordinary im i -> nobody (row (ad_net (im_ad im')) i) ->
  let x := position_of im i in let v := velocity_of im i in let x' := position_of im' i in let v' := velocity_of im' i in
  let h := time_step im in let mu := friction im in
  energy h x' v' = energy h x v - mu * h / 2 * ((v + v') ^ 2 + h ^ 2 / 4 * (x + x') ^ 2 + h ^ 2 / 4 * mu * (x + x') * (v + v')).
Proof using Htanh Hq. intros Hr Hf Hd E Hi Hw. apply energy_balance. eapply free_step; eauto. Qed.

(** The rate of decay is a number below 1. *)
Theorem C81_rate (h mu : R) : 0 < h < 2 -> 0 < mu -> h * mu < 4 -> 0 < energy_rate h mu < 1 /\ forall eps, 0 < eps -> exists k0, forall k, (k0 <= k)%nat -> energy_rate h mu ^ k < eps.
Proof.
  intros Hh Hm Hc. pose proof (energy_rate_bounds h mu Hh Hm Hc) as B. split; [exact B|]. intros eps He.
  destruct (pow_lt_1_zero (energy_rate h mu) ltac:(rewrite Rabs_right; lra) eps He) as [k0 H]. exists k0. intros k Hk. specialize (H k Hk).
  rewrite Rabs_right in H; [exact H|]. apply Rle_ge, pow_le. lra.
Qed.
Theorem C81_energy_run k (im im' : inertial) s s' i : ad_ready (im_ad im) -> 0 <= friction im -> 0 < time_step im < 2 -> time_step im * friction im < 4 ->
  inertial_run (a:=RA) lm g q k im s = Ok (im', s') -> ordinary im i -> inertial_rows lm g q k im s i nobody ->
  energy (time_step im) (position_of im' i) (velocity_of im' i) <=
    energy_rate (time_step im) (friction im) ^ k * energy (time_step im) (position_of im i) (velocity_of im i).
Proof using Htanh Hq.
  intros Hr Hf Hd Hc E Hi Hw.
  destruct (inertial_track lm g q Hq (fun j imj => energy (time_step im) (position_of imj i) (velocity_of imj i) <=
    energy_rate (time_step im) (friction im) ^ j * energy (time_step im) (position_of im i) (velocity_of im i)) im s k im' s' Hr) as [H _]; auto.
  - cbn [pow]. rewrite Rmult_1_l. apply Rle_refl.
  - intros j imj sj imj' sj' Hj Ej (F1 & F2 & F3 & F4 & F5 & F6) E1 Ej' Q.
    pose proof (free_step imj imj' sj sj' i F1 ltac:(rewrite F3; exact Hf) ltac:(rewrite F2; apply Hd) E1
      ltac:(unfold ordinary; rewrite F2, F4; exact Hi) ltac:(apply (Hw (S j) imj' sj'); auto; lia)) as V. rewrite F2, F3 in V.
    pose proof (energy_decays _ _ _ _ _ _ Hd Hf Hc V) as P. eapply Rle_trans; [exact P|]. cbn [pow]. rewrite Rmult_assoc.
    apply Rmult_le_compat_l; [|exact Q].
    revert Hf Hd Hc. generalize (time_step im), (friction im). intros h mu Hf Hd Hc. change R in h, mu.
    destruct Hf as [Hf|<-]; [pose proof (energy_rate_bounds h mu Hd Hf Hc); lra|]. unfold energy_rate. replace (0 * h / 2) with 0 by field. lra.
Qed.

(** Without friction nothing is dissipated, for every time step. *)
Theorem C81_frictionless k (im im' : inertial) s s' i : ad_ready (im_ad im) -> friction im = 0 -> 0 < time_step im ->
  inertial_run (a:=RA) lm g q k im s = Ok (im', s') -> ordinary im i -> inertial_rows lm g q k im s i nobody ->
  energy (time_step im) (position_of im' i) (velocity_of im' i) = energy (time_step im) (position_of im i) (velocity_of im i).
Proof using Htanh Hq.
  intros Hr Hf Hd E Hi Hw.
  destruct (inertial_track lm g q Hq (fun j imj => energy (time_step im) (position_of imj i) (velocity_of imj i) =
    energy (time_step im) (position_of im i) (velocity_of im i)) im s k im' s' Hr) as [H _]; auto.
  intros j imj sj imj' sj' Hj Ej (F1 & F2 & F3 & F4 & F5 & F6) E1 Ej' Q.
  pose proof (C81_energy_step imj imj' sj sj' i F1 ltac:(rewrite F3, Hf; apply Rle_refl) ltac:(rewrite F2; exact Hd) E1
    ltac:(unfold ordinary; rewrite F2, F4; exact Hi) ltac:(apply (Hw (S j) imj' sj'); auto; lia)) as P. cbv zeta in P. rewrite F2, F3, Hf in P.
  rewrite P, Q. match goal with |- ?u = ?w => change (@eq R u w) end. generalize (time_step im). intros h. change R in h. field.
Qed.

(** With friction the agent comes to rest at the neutral opinion; how long that takes depends on the
    initial energy, the time step and the friction only. *)
Theorem C81_comes_to_rest (h mu M : R) : 0 < h <= 1 -> 0 < mu -> h * mu < 4 -> 0 <= M -> forall eps, 0 < eps -> exists k0, forall k (im im' : inertial) s s' i, (k0 <= k)%nat ->
  time_step im = h -> friction im = mu -> ad_ready (im_ad im) -> inertial_run (a:=RA) lm g q k im s = Ok (im', s') -> ordinary im i -> inertial_rows lm g q k im s i nobody ->
  Rabs (position_of im i) <= M -> Rabs (velocity_of im i) <= M ->
  Rabs (position_of im' i) < eps /\ Rabs (velocity_of im' i) < eps.
Proof using Htanh Hq.
  intros Hh Hm Hc HM eps He. destruct (energy_rate_bounds h mu ltac:(lra) Hm Hc) as (R1 & R2).
  set (b := (5 / 6 * eps) ^ 2). assert (Hb : 0 < b) by (unfold b; apply pow_lt; lra).
  destruct (pow_lt_1_zero (energy_rate h mu) ltac:(rewrite Rabs_right; lra) (b / (2 * M ^ 2 + 1)) ltac:(apply Rdiv_lt_0_compat; nra)) as [k0 Hk0].
  exists k0. intros k im im' s s' i Hk Eh Em Hr E Hi Hw Hx Hv.
  pose proof (C81_energy_run k im im' s s' i Hr) as P. rewrite Eh, Em in P. specialize (P ltac:(lra) ltac:(lra) Hc E Hi Hw).
  specialize (Hk0 k Hk). set (rk := energy_rate h mu ^ k) in *. assert (Hrk : 0 <= rk) by (apply pow_le; lra). rewrite Rabs_right in Hk0 by lra.
  assert (E0 : energy h (position_of im i) (velocity_of im i) <= 2 * M ^ 2 + 1).
  { assert (B : forall p, Rabs p <= M -> p ^ 2 <= M ^ 2) by (intros p Hp; rewrite <- pow2_abs; apply pow_incr; split; [apply Rabs_pos|exact Hp]).
    pose proof (B _ Hx) as B1. pose proof (B _ Hv) as B2. unfold energy. generalize (position_of im i), (velocity_of im i), B1, B2. intros p v0 C1 C2.
    assert (0 <= p ^ 2) by apply pow2_ge_0. assert (0 <= h ^ 2 <= 1) by nra. nra. }
  assert (Ek : energy h (position_of im' i) (velocity_of im' i) < b).
  { eapply Rle_lt_trans; [exact P|]. apply Rle_lt_trans with (rk * (2 * M ^ 2 + 1)); [apply Rmult_le_compat_l; auto|].
    apply Rmult_lt_reg_r with (/ (2 * M ^ 2 + 1)); [apply Rinv_0_lt_compat; nra|]. rewrite Rmult_assoc, Rinv_r by nra. rewrite Rmult_1_r. exact Hk0. }
  assert (En : enorm h (position_of im' i) (velocity_of im' i) < 5 / 6 * eps).
  { unfold enorm. rewrite <- (sqrt_Rsqr (5 / 6 * eps)) by lra. apply sqrt_lt_1_alt. split; [apply energy_nonneg; lra|]. unfold Rsqr. unfold b in Ek. lra. }
  pose proof (enorm_position h (position_of im' i) (velocity_of im' i) ltac:(lra)). pose proof (enorm_velocity h (position_of im' i) (velocity_of im' i) ltac:(lra)). lra.
Qed.

(** ** C82 *)
(** If [y] is the damped oscillator with the agent's initial opinion and velocity, the agent stays within
    t * dt^2 * (1 + friction)^3 / 2 * (initial size) of it. *)
Theorem C82_follows_oscillator k (im im' : inertial) s s' i y z M : ad_ready (im_ad im) -> 0 <= friction im -> 0 < time_step im <= 1 -> time_step im * friction im <= 4 ->
  inertial_run (a:=RA) lm g q k im s = Ok (im', s') -> ordinary im i -> inertial_rows lm g q k im s i nobody ->
  damped_oscillator (friction im) 0 y z -> y 0 = position_of im i -> z 0 = velocity_of im i -> 0 <= M -> (position_of im i) ^ 2 + (velocity_of im i) ^ 2 <= M ^ 2 ->
  let t := INR k * time_step im in let e := t * (time_step im ^ 2 * ((1 + friction im) ^ 3 / 2 * M)) in
  Rabs (position_of im' i - y t) <= e /\ Rabs (velocity_of im' i - z t) <= e.
Proof using Htanh Hq.
  intros Hr Hf Hd Hc E Hi Hw HS Y0 Z0 HM HE t e.
  destruct (inertial_sequence lm g q Hq k im im' s s' i Hr E) as (X & V & X0 & V0 & Xk & Vk & HX).
  assert (ST : forall j, (j < k)%nat -> verlet (time_step im) (friction im) 0 0 (X j) (V j) (X (S j)) (V (S j))).
  { intros j Hj. destruct (HX j Hj) as (imj & sj & imj' & sj' & Ej & (F1 & F2 & F3 & F4 & F5 & F6) & E1 & Ej' & -> & -> & -> & ->).
    pose proof (free_step imj imj' sj sj' i F1 ltac:(rewrite F3; exact Hf) ltac:(rewrite F2; apply Hd) E1
      ltac:(unfold ordinary; rewrite F2, F4; exact Hi) ltac:(apply (Hw (S j) imj' sj'); auto; lia)) as P. rewrite F2, F3 in P. exact P. }
  rewrite <- Xk, <- Vk. rewrite <- X0 in Y0, HE. rewrite <- V0 in Z0, HE. unfold e, t. clear -Hf Hd Hc HS Y0 Z0 HM HE ST. 
  revert Hf Hd Hc HS ST. generalize (time_step im), (friction im). intros h mu. change R in h, mu. intros Hf Hd Hc HS ST.
  pose proof (verlet_follows mu 0 y z h X V M (fun _ => 0) (fun _ => 0) Hf HS Hd Hc HM ltac:(rewrite Y0, Z0, Rminus_0_r; exact HE) k) as P.
  specialize (P ltac:(intros j Hj; destruct (ST j Hj) as (S1 & S2); rewrite !Rplus_0_r; split; assumption)).
  rewrite Y0, Z0, !Rminus_eq_0, enorm_0 in P.
  assert (Z : forall l : list nat, Rsum (map (fun _ => (1 + h / 2) * Rabs 0 + Rabs 0) l) = 0) by (induction l as [|a l IH]; [reflexivity|]; cbn [map]; rewrite Rsum_cons, IH, Rabs_R0; ring).
  rewrite Z in P. set (N := enorm h (X k - y (INR k * h)) (V k - z (INR k * h))) in *.
  assert (HN : 6 / 5 * N <= INR k * h * (h ^ 2 * ((1 + mu) ^ 3 / 2 * M))).
  { replace (INR k * h * (h ^ 2 * ((1 + mu) ^ 3 / 2 * M))) with (6 / 5 * (0 + INR k * ((1 + mu) ^ 3 / 2 * 5 / 6 * M * h ^ 3) + 0)) by field. lra. }
  pose proof (enorm_position h (X k - y (INR k * h)) (V k - z (INR k * h)) ltac:(lra)) as P1.
  pose proof (enorm_velocity h (X k - y (INR k * h)) (V k - z (INR k * h)) ltac:(lra)) as P2. fold N in P1, P2.
  pose proof (Rabs_pos (V k - z (INR k * h))). split; lra.
Qed.

(** The oscillator that starts at rest, in closed form; it is the only one. *)
Theorem C82_closed_form mu c x0 : 0 <= mu -> mu <> 2 ->
  let f := if Rlt_dec mu 2 then underdamped mu c x0 else overdamped mu c x0 in
  (exists z, damped_oscillator mu c f z /\ f 0 = x0 /\ z 0 = 0) /\
  forall y z, damped_oscillator mu c y z -> y 0 = x0 -> z 0 = 0 -> forall t, 0 <= t -> y t = f t.
Proof.
  intros Hm Hn f.
  assert (EX : exists z, damped_oscillator mu c f z /\ f 0 = x0 /\ z 0 = 0).
  { unfold f. destruct (Rlt_dec mu 2); [apply underdamped_solution; lra|apply overdamped_solution; lra]. }
  split; [exact EX|]. intros y z HS Hy Hz t Ht. destruct EX as (z' & HS' & Hy' & Hz').
  apply (oscillator_unique mu c y z f z' Hm HS HS'); congruence.
Qed.

(** ** C83 *)
Definition inertial_bots_in_place (im : inertial) : Prop :=
  forall b, (b < n_bots (ad_set (im_ad im)))%nat -> position_of im b = nth b (bot_opinion (ad_set (im_ad im))) 0.

(** A bot's hidden velocity stays bounded: [B] bounds the force on a bot, [Vm] is at least B / friction. *)
Lemma bot_velocity_step h mu b d G' v moved v' B Vm : 0 < h <= 1 -> 0 <= mu -> h * mu <= 2 -> 0 <= B -> B <= mu * Vm -> Rabs d <= B -> Rabs (G' - b) <= B ->
  moved = b + v * h + h ^ 2 / 2 * (d - mu * v) -> (1 + mu * h / 2) * v' = v + h / 2 * (d - mu * v + (G' - moved)) -> Rabs v <= Vm ->
  Rabs v' <= Vm /\ Rabs (moved - b) <= 2 * h * Vm.
Proof.
  intros Hh Hm Hc HB HV Hd HG Em Ev Hv. assert (HVm : 0 <= Vm) by (pose proof (Rabs_pos v); lra).
  assert (Hq1 : 0 <= h * mu) by (apply Rmult_le_pos; lra). assert (Hh2 : 0 <= h ^ 2 <= 1) by nra. assert (HhB : h * B <= h * (mu * Vm)) by nra.
  split.
  - assert (E1 : (1 + mu * h / 2) * v' = (1 - h * mu / 2) * (1 - h ^ 2 / 2) * v + h / 2 * ((1 - h ^ 2 / 2) * d + (G' - b))) by (rewrite Ev, Em; field).
    assert (A1 : Rabs ((1 - h * mu / 2) * (1 - h ^ 2 / 2) * v) <= (1 - h * mu / 2) * Vm).
    { rewrite !Rabs_mult, (Rabs_right (1 - h * mu / 2)), (Rabs_right (1 - h ^ 2 / 2)) by lra. pose proof (Rabs_pos v).
      replace ((1 - h * mu / 2) * (1 - h ^ 2 / 2) * Rabs v) with ((1 - h * mu / 2) * ((1 - h ^ 2 / 2) * Rabs v)) by ring. apply Rmult_le_compat_l; nra. }
    assert (A2 : Rabs (h / 2 * ((1 - h ^ 2 / 2) * d + (G' - b))) <= h * B).
    { rewrite Rabs_mult, (Rabs_right (h / 2)) by lra. assert (Rabs ((1 - h ^ 2 / 2) * d + (G' - b)) <= 2 * B).
      { eapply Rle_trans; [apply Rabs_triang|]. rewrite Rabs_mult, (Rabs_right (1 - h ^ 2 / 2)) by lra. pose proof (Rabs_pos d). nra. } nra. }
    assert (A3 : (1 + mu * h / 2) * Rabs v' <= (1 + mu * h / 2) * Vm).
    { rewrite <- (Rabs_right (1 + mu * h / 2)) at 1 by lra. rewrite <- Rabs_mult, E1. eapply Rle_trans; [apply Rabs_triang|]. nra. }
    apply Rmult_le_reg_l with (1 + mu * h / 2); [lra|exact A3].
  - replace (moved - b) with (h * ((1 - h * mu / 2) * v) + h ^ 2 / 2 * d) by (rewrite Em; field).
    eapply Rle_trans; [apply Rabs_triang|]. rewrite !Rabs_mult, (Rabs_right h), (Rabs_right (1 - h * mu / 2)), (Rabs_right (h ^ 2 / 2)) by lra.
    pose proof (Rabs_pos v). assert (h * ((1 - h * mu / 2) * Rabs v) <= h * (1 * Vm)) by (apply Rmult_le_compat_l; [lra|]; apply Rmult_le_compat; lra).
    assert (h ^ 2 / 2 * Rabs d <= h ^ 2 / 2 * B) by (apply Rmult_le_compat_l; lra).
    assert (h ^ 2 / 2 * B <= h * Vm). { replace (h ^ 2 / 2 * B) with (h / 2 * (h * B)) by field. apply Rle_trans with (h / 2 * (2 * Vm)); [|lra]. apply Rmult_le_compat_l; [lra|]. nra. }
    lra.
Qed.

(** If agent [i] hears the same bots with the same weights throughout, it follows the damped oscillator
    around C = (K / reluctance) * sum of w_b tanh(alpha * bot opinion), up to an error of first order in dt:
    bots acquire a velocity and are displaced when the new forces are computed. *)
Theorem C83_run k (im im' : inertial) s s' i r B Vm y z M : ad_ready (im_ad im) -> 0 <= friction im -> 0 < time_step im <= 1 -> time_step im * friction im <= 2 ->
  0 <= B -> B <= friction im * Vm -> inertial_bots_in_place im ->
  inertial_run (a:=RA) lm g q k im s = Ok (im', s') -> ordinary im i ->
  inertial_rows lm g q k im s i (fun r' => r' = r) -> hears_only_bots (ad_set (im_ad im)) r ->
  (forall b, (b < n_bots (ad_set (im_ad im)))%nat -> Rabs (velocity_of im b) <= Vm /\
     inertial_rows lm g q k im s b (fun r' => Rabs (nth b (bot_opinion (ad_set (im_ad im))) 0) + Rabs (K (ad_set (im_ad im)) / inertial_reluctance im b) * total_weight r' <= B)) ->
  let C := bot_target (ad_set (im_ad im)) (inertial_reluctance im i) r in
  damped_oscillator (friction im) C y z -> y 0 = position_of im i -> z 0 = velocity_of im i -> 0 <= M -> (position_of im i - C) ^ 2 + (velocity_of im i) ^ 2 <= M ^ 2 ->
  let t := INR k * time_step im in
  let e := t * (time_step im ^ 2 * ((1 + friction im) ^ 3 / 2 * M) +
                6 / 5 * time_step im * (Rabs (K (ad_set (im_ad im)) / inertial_reluctance im i) * total_weight r * Rabs (alpha (ad_set (im_ad im))) * Vm)) in
  Rabs (position_of im' i - y t) <= e /\ Rabs (velocity_of im' i - z t) <= e /\ inertial_bots_in_place im'.
Proof using Htanh Hq.
  intros Hr Hf Hd Hc HB HV Hbp E Hi Hw Hon Hbots C HS Y0 Z0 HM HE t e.
  set (nb := n_bots (ad_set (im_ad im))) in *. set (st := ad_set (im_ad im)) in *.
  assert (Hz : 1 + friction im * time_step im / 2 <> 0).
  { revert Hf Hd. fold st. generalize (dt st), (friction im). intros h mu Hf Hd. change R in h, mu. assert (0 <= mu * h) by (apply Rmult_le_pos; lra). lra. }
  (* bots along the run *)
  assert (BV : forall j imj sj, (j <= k)%nat -> inertial_run (a:=RA) lm g q j im s = Ok (imj, sj) ->
     inertial_bots_in_place imj /\ forall b, (b < nb)%nat -> Rabs (velocity_of imj b) <= Vm).
  { intros j imj sj Hj Ej. destruct (inertial_track lm g q Hq (fun u imu => inertial_bots_in_place imu /\ forall b, (b < nb)%nat -> Rabs (velocity_of imu b) <= Vm) im s j imj sj Hr) as [H _]; auto.
    { split; [exact Hbp|]. intros b Hb. apply (Hbots b Hb). }
    intros u imu su imu' su' Hu Eu (F1 & F2 & F3 & F4 & F5 & F6) E1 Eu' (Q1 & Q2).
    destruct (inertial_frame lm g q Hq imu imu' su su' F1 E1) as (_ & G2 & _).
    destruct (inertial_components lm g q Htanh Hq imu imu' su su' F1 E1) as (moved & HC); [rewrite F2, F3; exact Hz|].
    assert (HN : (nb <= n_agents (ad_net (im_ad imu)))%nat). { rewrite F4. exact (proj1 (proj2 (proj2 (proj2 Hr)))). }
    split.
    - intros b Hb. rewrite G2, F2 in Hb |- *. destruct (HC b ltac:(unfold nb, st in HN; lia)) as (_ & _ & P). rewrite F2 in P. apply P. exact Hb.
    - intros b Hb. destruct (HC b ltac:(lia)) as ((P1 & P2) & _ & _). rewrite F2, F3 in P1, P2. fold st in P1, P2.
      assert (Pb : position_of imu b = nth b (bot_opinion st) 0). { rewrite Q1 by (rewrite F2; exact Hb). now rewrite F2. }
      rewrite Pb in P1, P2. assert (HNb : (b < n_agents (ad_net (im_ad im)))%nat) by (rewrite <- F4; lia). rewrite (F5 b HNb) in P1, P2.
      destruct (Hbots b Hb) as (_ & HB2). specialize (HB2 (S u) imu' su' ltac:(lia) Eu').
      set (rb := row (ad_net (im_ad imu')) b) in *.
      assert (GB : forall w, Rabs (social_pull st (inertial_reluctance im b) rb w - nth b (bot_opinion st) 0) <= B).
      { intros w. unfold Rminus. eapply Rle_trans; [apply Rabs_triang|]. rewrite Rabs_Ropp. pose proof (pull_bound st (inertial_reluctance im b) rb w). lra. }
      revert P1 P2 Hd Hf Hc HV. generalize (dt st), (friction im). intros h mu P1 P2 Hd Hf Hc HV. change R in h, mu.
      exact (proj1 (bot_velocity_step h mu _ _ _ _ _ _ B Vm Hd Hf Hc HB HV (GB _) (GB _) P1 P2 (Q2 b Hb))). }
  destruct (inertial_sequence lm g q Hq k im im' s s' i Hr E) as (X & V & X0 & V0 & Xk & Vk & HX).
  set (W := Rabs (K st / inertial_reluctance im i) * total_weight r * Rabs (alpha st) * Vm) in *.
  assert (ST : forall j, (j < k)%nat -> exists p, Rabs p <= time_step im ^ 2 * W /\
     X (S j) = X j + V j * time_step im + time_step im ^ 2 / 2 * (C - X j - friction im * V j) + 0 /\
     (1 + friction im * time_step im / 2) * V (S j) = V j + time_step im / 2 * (C - X j - friction im * V j + (C - X (S j))) + p).
  { intros j Hj. destruct (HX j Hj) as (imj & sj & imj' & sj' & Ej & (F1 & F2 & F3 & F4 & F5 & F6) & E1 & Ej' & -> & -> & -> & ->).
    destruct (BV j imj sj ltac:(lia) Ej) as (Q1 & Q2).
    destruct (inertial_components lm g q Htanh Hq imj imj' sj sj' F1 E1) as (moved & HC); [rewrite F2, F3; exact Hz|].
    assert (HNi : (i < n_agents (ad_net (im_ad imj)))%nat) by (rewrite F4; apply Hi).
    destruct (HC i HNi) as ((P1 & P2) & P3 & _). rewrite F2, F3 in P1, P2. rewrite (F5 i (proj2 Hi)) in P1, P2.
    rewrite (P3 ltac:(rewrite F2; apply Hi)). rewrite (Hw (S j) imj' sj' ltac:(lia) Ej') in P1, P2. fold st in P1, P2 |- *.
    assert (HN : (nb <= n_agents (ad_net (im_ad imj)))%nat). { rewrite F4. exact (proj1 (proj2 (proj2 (proj2 Hr)))). }
    assert (C1 : social_pull st (inertial_reluctance im i) r (position_of imj) = C).
    { unfold C, bot_target, social_pull. f_equal. f_equal. apply map_ext_in. intros p Hp. unfold hears_only_bots in Hon. rewrite Forall_forall in Hon.
      destruct (Hon p Hp) as [->|Hp']; [ring|]. rewrite (Q1 (fst p) ltac:(rewrite F2; exact Hp')), F2. reflexivity. }
    rewrite C1 in P1, P2.
    set (G' := social_pull st (inertial_reluctance im i) r moved) in *.
    assert (DG : Rabs (G' - C) <= 2 * dt st * W).
    { rewrite <- C1. unfold G'. eapply Rle_trans; [apply (pull_close st _ r _ _ (2 * dt st * Vm))|].
      - apply Forall_forall. intros p Hp. unfold hears_only_bots in Hon. rewrite Forall_forall in Hon. destruct (Hon p Hp) as [|Hp']; [now left|]. right.
        set (b := fst p) in *. destruct (HC b ltac:(unfold nb in HN; lia)) as ((S1 & S2) & _ & _). rewrite F2, F3 in S1, S2. fold st in S1, S2.
        assert (Pb : position_of imj b = nth b (bot_opinion st) 0). { rewrite Q1 by (rewrite F2; exact Hp'). now rewrite F2. }
        rewrite Pb in S1, S2 |- *. assert (HNb : (b < n_agents (ad_net (im_ad im)))%nat) by (rewrite <- F4; unfold nb in HN; lia). rewrite (F5 b HNb) in S1, S2.
        destruct (Hbots b Hp') as (_ & HB2). specialize (HB2 (S j) imj' sj' ltac:(lia) Ej').
        set (rb := row (ad_net (im_ad imj')) b) in *.
        assert (GB : forall w, Rabs (social_pull st (inertial_reluctance im b) rb w - nth b (bot_opinion st) 0) <= B).
        { intros w. unfold Rminus. eapply Rle_trans; [apply Rabs_triang|]. rewrite Rabs_Ropp. pose proof (pull_bound st (inertial_reluctance im b) rb w). lra. }
        revert S1 S2 Hd Hf Hc HV. generalize (dt st), (friction im). intros h mu S1 S2 Hd Hf Hc HV. change R in h, mu.
        exact (proj2 (bot_velocity_step h mu _ _ _ _ _ _ B Vm Hd Hf Hc HB HV (GB _) (GB _) S1 S2 (Q2 b Hp'))).
      - unfold W. apply Req_le. generalize (dt st). intros h. change R in h. ring. }
    exists (dt st / 2 * (G' - C)). clear -P1 P2 DG Hd. revert P1 P2 DG Hd. fold st. generalize (dt st), (friction im). intros h mu P1 P2 DG Hd. change R in h, mu.
    split; [|split].
    - rewrite Rabs_mult, (Rabs_right (h / 2)) by lra. replace (h ^ 2 * W) with (h / 2 * (2 * h * W)) by field. apply Rmult_le_compat_l; lra.
    - rewrite Rplus_0_r. exact P1.
    - rewrite P2. field. }
  rewrite <- and_assoc. split; [|exact (proj1 (BV k im' s' (le_n k) E))].
  rewrite <- Xk, <- Vk. rewrite <- X0 in Y0, HE. rewrite <- V0 in Z0, HE. unfold e, t. clearbody W C. fold st in ST. clear -Hf Hd Hc HS Y0 Z0 HM HE ST.
  revert Hf Hd Hc HS ST. generalize (dt st), (friction im). intros h mu. change R in h, mu. intros Hf Hd Hc HS ST.
  set (p := fun j => (1 + mu * h / 2) * V (S j) - (V j + h / 2 * (C - X j - mu * V j + (C - X (S j))))).
  pose proof (verlet_follows mu C y z h X V M (fun _ => 0) p Hf HS Hd ltac:(lra) HM ltac:(rewrite Y0, Z0; exact HE) k) as P.
  specialize (P ltac:(intros j Hj; destruct (ST j Hj) as (p' & _ & S1 & S2); split; [exact S1|unfold p; ring])).
  rewrite Y0, Z0, !Rminus_eq_0, enorm_0 in P.
  assert (Z : forall n, (n <= k)%nat -> Rsum (map (fun j => (1 + h / 2) * Rabs 0 + Rabs (p j)) (seq 0 n)) <= INR n * (h ^ 2 * W)).
  { induction n as [|n IH]; intros Hn; [cbn [seq map INR]; rewrite Rsum_nil; lra|]. rewrite seq_S, map_app, Rsum_app, S_INR. cbn [map Nat.add]. rewrite Rsum_cons, Rsum_nil, Rabs_R0.
    specialize (IH ltac:(lia)). rewrite Rabs_R0 in IH. destruct (ST n ltac:(lia)) as (p' & B1 & _ & S2). assert (Ep : p n = p') by (unfold p; lra). rewrite Ep. lra. }
  specialize (Z k (le_n k)). set (N := enorm h (X k - y (INR k * h)) (V k - z (INR k * h))) in *.
  assert (HN : 6 / 5 * N <= INR k * h * (h ^ 2 * ((1 + mu) ^ 3 / 2 * M) + 6 / 5 * h * W)).
  { replace (INR k * h * (h ^ 2 * ((1 + mu) ^ 3 / 2 * M) + 6 / 5 * h * W)) with (6 / 5 * (0 + INR k * ((1 + mu) ^ 3 / 2 * 5 / 6 * M * h ^ 3) + INR k * (h ^ 2 * W))) by field. lra. }
  pose proof (enorm_position h (X k - y (INR k * h)) (V k - z (INR k * h)) ltac:(lra)) as P1.
  pose proof (enorm_velocity h (X k - y (INR k * h)) (V k - z (INR k * h)) ltac:(lra)) as P2. fold N in P1, P2.
  pose proof (Rabs_pos (V k - z (INR k * h))). split; lra.
Qed.

(** *** Populations without contacts *)
Theorem C81_silent_population k (im : inertial) s : real_ok g -> ad_ready (im_ad im) -> inertial_silent im -> 0 <= friction im -> 0 < time_step im < 2 -> time_step im * friction im < 4 ->
  exists im' s', inertial_run (a:=RA) lm g q k im s = Ok (im', s') /\ forall i, ordinary im i ->
    energy (time_step im) (position_of im' i) (velocity_of im' i) <=
      energy_rate (time_step im) (friction im) ^ k * energy (time_step im) (position_of im i) (velocity_of im i).
Proof using Htanh Hq.
  intros Hg Hr Hs Hf Hd Hc. destruct (inertial_run_ready lm g q Hq k im s Hr) as (im' & s' & E). exists im', s'. split; [exact E|]. intros i Hi.
  apply (C81_energy_run k im im' s s' i); auto. apply (inertial_silent_run lm g q Hq k im s i Hg Hr Hs (proj2 Hi)).
Qed.

(** *** One bot and one agent in mean-field mode: the formula of the project's inertial test *)
Hypothesis Hpow : lpow RA lm = Rpow.
Theorem C83_one_bot k (im : inertial) s b : ad_ready (im_ad im) -> 0 < friction im -> friction im <> 2 -> 0 < time_step im <= 1 -> time_step im * friction im <= 2 ->
  mean_weights (ad_set (im_ad im)) = true -> n_agents (ad_net (im_ad im)) = 2%nat -> Forall (fun x : R => x <= 1) (map i_activity (agents (ad_net (im_ad im)))) ->
  n_bots (ad_set (im_ad im)) = 1%nat -> contact_count (a:=RA) (ad_set (im_ad im)) 0 = 1%nat -> contact_count (a:=RA) (ad_set (im_ad im)) 1 = 0%nat -> reciprocity (ad_set (im_ad im)) = 0 ->
  nth 0 (bot_opinion (ad_set (im_ad im))) 0 = b -> position_of im 0 = b -> velocity_of im 0 = 0 -> velocity_of im 1 = 0 ->
  let mu := friction im in let h := time_step im in let rel := inertial_reluctance im 1 in let st := ad_set (im_ad im) in
  let C := K st / rel * tanh (alpha st * b) in let x0 := position_of im 1 in let t := INR k * h in
  exists im' s', inertial_run (a:=RA) lm g q k im s = Ok (im', s') /\ position_of im' 0 = b /\
  Rabs (position_of im' 1 - (if Rlt_dec mu 2 then underdamped mu C x0 t else overdamped mu C x0 t))
    <= t * (h ^ 2 * ((1 + mu) ^ 3 / 2 * Rabs (x0 - C)) + 6 / 5 * h * (Rabs (K st / rel) * Rabs (alpha st) * (Rabs b / mu))).
Proof using Htanh Hq Hpow.
  intros Hr Hf Hf2 Hd Hc Hm HL Ha Hnb H0 H1 Hrc Hbo Hob Hv0 Hv1 mu h rel st C x0 t.
  destruct (inertial_run_ready lm g q Hq k im s Hr) as (im' & s' & E). exists im', s'. split; auto.
  assert (Hbp : inertial_bots_in_place im). { intros u Hu. rewrite Hnb in Hu. assert (u = 0%nat) by lia. subst u. now rewrite Hob, Hbo. }
  assert (HR : forall j imj sj, (1 <= j <= k)%nat -> inertial_run (a:=RA) lm g q j im s = Ok (imj, sj) ->
    row (ad_net (im_ad imj)) 0 = [(0%nat, 0); (1%nat, 0)] /\ row (ad_net (im_ad imj)) 1 = [(0%nat, 1); (1%nat, 0)]).
  { intros j imj sj Hj Ej. destruct j as [|j]; [lia|]. pose proof Ej as Ej'. rewrite inertial_snoc in Ej'. apply bind_ok_inv in Ej' as ([im1 s1] & E1 & E2).
    destruct (inertial_track lm g q Hq (fun _ _ => True) im s j im1 s1 Hr I) as [_ (F1 & F2 & F3 & F4 & F5 & F6)]; auto.
    destruct (inertial_two_rows lm g q Hq Hpow im1 imj s1 sj F1 ltac:(now rewrite F2) ltac:(now rewrite F4) ltac:(now rewrite F6) ltac:(rewrite F2; lia) ltac:(rewrite F2; lia) E2) as (R0 & R1).
    rewrite F2, H0, H1, Hrc in R0, R1. cbn [INR] in R0, R1. split.
    - rewrite R0. assert (G : forall u v : R, u = v -> [(0%nat, 0); (1%nat, u)] = [(0%nat, 0); (1%nat, v)]) by (intros ? ? ->; reflexivity). apply G. ring.
    - rewrite R1. assert (G : forall u v : R, u = v -> [(0%nat, u); (1%nat, 0)] = [(0%nat, v); (1%nat, 0)]) by (intros ? ? ->; reflexivity). apply G. ring. }
  assert (HT : forall u v : R, total_weight [(0%nat, u); (1%nat, v)] = Rabs u + Rabs v) by (intros; unfold total_weight; cbn [map snd]; rewrite !Rsum_cons, Rsum_nil; ring).
  assert (T0 : total_weight [(0%nat, 0); (1%nat, 0)] = 0) by (rewrite HT, Rabs_R0; ring).
  assert (T1 : total_weight [(0%nat, 1); (1%nat, 0)] = 1) by (rewrite HT, Rabs_R0, Rabs_R1; ring).
  assert (EC : bot_target st rel [(0%nat, 1); (1%nat, 0)] = C).
  { unfold bot_target, social_pull, C. cbn [map fst snd]. rewrite !Rsum_cons, Rsum_nil. fold st in Hbo. rewrite Hbo. ring. }
  destruct (C82_closed_form mu C x0 ltac:(unfold mu; apply Rlt_le, Hf) Hf2) as ((z & HS & Y0 & Z0) & _).
  set (f := if Rlt_dec mu 2 then underdamped mu C x0 else overdamped mu C x0) in *.
  assert (BM : forall u w : R, 0 < u -> u * (w / u) = w) by (intros; field; lra).
  pose proof (C83_run k im im' s s' 1 [(0%nat, 1); (1%nat, 0)] (Rabs b) (Rabs b / mu) f z (Rabs (x0 - C)) Hr ltac:(apply Rlt_le, Hf) Hd Hc (Rabs_pos b)
    ltac:(apply Req_le; symmetry; apply BM, Hf) Hbp E ltac:(unfold ordinary; rewrite Hnb, HL; lia)) as P.
  specialize (P ltac:(intros j imj sj Hj Ej; apply (HR j imj sj Hj Ej))).
  rewrite Hnb in P. specialize (P ltac:(unfold hears_only_bots; rewrite Hnb; constructor; [right; cbn; lia|constructor; [left; reflexivity|constructor]])).
  assert (Hq0 : 0 <= Rabs b / mu) by (apply Rmult_le_pos; [apply Rabs_pos|apply Rlt_le, Rinv_0_lt_compat, Hf]).
  specialize (P ltac:(intros u Hu; assert (u = 0%nat) by lia; subst u; split; [rewrite Hv0, Rabs_R0; exact Hq0|
    intros j imj sj Hj Ej; rewrite (proj1 (HR j imj sj Hj Ej)), T0, Rmult_0_r, Rplus_0_r, Hbo; apply Rle_refl])).
  cbv zeta in P. fold st rel in P. rewrite EC in P.
  specialize (P HS ltac:(exact Y0) ltac:(rewrite Hv1; exact Z0) (Rabs_pos _) ltac:(rewrite Hv1; fold x0; rewrite pow2_abs; cbn [pow]; lra)).
  destruct P as (P1 & _ & P3). split.
  - rewrite (P3 0%nat). + destruct (inertial_track lm g q Hq (fun _ _ => True) im s k im' s' Hr I) as [_ (_ & F2 & _)]; auto. rewrite F2. exact Hbo.
    + destruct (inertial_track lm g q Hq (fun _ _ => True) im s k im' s' Hr I) as [_ (_ & F2 & _)]; auto. rewrite F2, Hnb. lia.
  - rewrite T1, Rmult_1_r in P1. fold h t in P1. unfold f in P1. destruct (Rlt_dec mu 2); exact P1.
Qed.
End Inertia.

(** ** Concrete populations *)
Definition two_free : inertial := complete_inertial (field_settings (1/10) 0 3 (1/2) 3 0 [] []) (1/2) [mkInertial 1 1 1 0; mkInertial (-2) 1 1 1].
Lemma two_free_ready : ad_ready (im_ad two_free).
Proof. apply complete_inertial_ready; [apply field_fit; cbn; try lia; constructor|cbn; lia|cbn; lia]. Qed.
Lemma two_free_silent : inertial_silent two_free.
Proof. intros i Hi. reflexivity. Qed.
Example C81_instance k : exists im' s', inertial_run (a:=RA) real_libm mid_rng (list_pq RA) k two_free 0%nat = Ok (im', s') /\
  energy (1/10) (position_of im' 1) (velocity_of im' 1) <= energy_rate (1/10) (1/2) ^ k * energy (1/10) (-2) 1.
Proof.
  destruct (C81_silent_population real_libm mid_rng (list_pq RA) (fun _ => eq_refl) (list_pq_bag RA) k two_free 0%nat (proj2 C16_contracts_met) two_free_ready two_free_silent
    ltac:(cbn; lra) ltac:(cbn; lra) ltac:(cbn; lra)) as (im' & s' & E & H).
  exists im', s'. split; [exact E|]. exact (H 1%nat ltac:(split; cbn; lia)).
Qed.
Example C82_instance k : exists im' s', inertial_run (a:=RA) real_libm mid_rng (list_pq RA) k two_free 0%nat = Ok (im', s') /\
  Rabs (position_of im' 0 - underdamped (1/2) 0 1 (INR k * (1/10))) <= INR k * (1/10) * ((1/10) ^ 2 * ((1 + 1/2) ^ 3 / 2 * 1)).
Proof.
  destruct (inertial_run_ready real_libm mid_rng (list_pq RA) (list_pq_bag RA) k two_free 0%nat two_free_ready) as (im' & s' & E). exists im', s'. split; [exact E|].
  destruct (C82_closed_form (1/2) 0 1 ltac:(lra) ltac:(lra)) as ((z & HS & Y0 & Z0) & _). destruct (Rlt_dec (1/2) 2) as [L|L]; [|lra].
  exact (proj1 (C82_follows_oscillator real_libm mid_rng (list_pq RA) (fun _ => eq_refl) (list_pq_bag RA) k two_free im' 0%nat s' 0 _ z 1 two_free_ready
    ltac:(cbn; lra) ltac:(cbn; lra) ltac:(cbn; lra) E ltac:(split; cbn; lia)
    (inertial_silent_run real_libm mid_rng (list_pq RA) (list_pq_bag RA) k two_free 0%nat 0 (proj2 C16_contracts_met) two_free_ready two_free_silent ltac:(cbn; lia))
    HS Y0 Z0 ltac:(lra) ltac:(cbn; lra))).
Qed.

(** "Opinions of a population without contacts stay bounded" fails here, too: with a time step of 3. *)
Theorem C81_bounded_for_every_time_step_refuted :
  ~ (forall (im : inertial) s i, ad_ready (im_ad im) -> inertial_silent im -> 0 < dt (ad_set (im_ad im)) -> 0 <= friction_coefficient im -> ordinary im i ->
       exists B, forall k im' s', inertial_run (a:=RA) real_libm mid_rng (list_pq RA) k im s = Ok (im', s') -> Rabs (position_of im' i) <= B).
Proof.
  intros Claim. set (im := complete_inertial (field_settings 3 0 3 (1/2) 3 0 [] []) 0 [mkInertial 1 1 1 0; mkInertial (-2) 1 1 1]).
  assert (Hr : ad_ready (im_ad im)) by (apply complete_inertial_ready; [apply field_fit; cbn; try lia; constructor|cbn; lia|cbn; lia]).
  assert (Hs : inertial_silent im) by (intros i Hi; reflexivity).
  assert (Ho : ordinary im 0) by (split; cbn; lia).
  destruct (Claim im 0%nat 0%nat Hr Hs ltac:(cbn; lra) ltac:(cbn; lra) Ho) as [B HB].
  assert (G : forall k, 3 ^ k <= B).
  { intros k. destruct (inertial_run_ready real_libm mid_rng (list_pq RA) (list_pq_bag RA) k im 0%nat Hr) as (im' & s' & E).
    specialize (HB k im' s' E). pose proof (inertial_silent_run real_libm mid_rng (list_pq RA) (list_pq_bag RA) k im 0%nat 0 (proj2 C16_contracts_met) Hr Hs (proj2 Ho)) as HW.
    destruct (inertial_track real_libm mid_rng (list_pq RA) (list_pq_bag RA) (fun j imj => 3 ^ j <= Rabs (position_of imj 0) /\ position_of imj 0 * velocity_of imj 0 <= 0) im 0%nat k im' s' Hr) as [(H & _) _]; auto.
    - change (position_of im 0) with 1. change (velocity_of im 0) with 0. rewrite Rabs_R1. cbn [pow]. lra.
    - intros j imj sj imj' sj' Hj Ej (F1 & F2 & F3 & F4 & F5 & F6) E1 Ej' (Q1 & Q2).
      pose proof (free_step real_libm mid_rng (list_pq RA) (fun _ => eq_refl) (list_pq_bag RA) imj imj' sj sj' 0 F1 ltac:(rewrite F3; cbn; lra) ltac:(rewrite F2; cbn; lra) E1
        ltac:(unfold ordinary; rewrite F2, F4; exact Ho) ltac:(apply (HW (S j) imj' sj'); auto; lia)) as V. rewrite F2, F3 in V.
      change (dt (ad_set (im_ad im))) with 3 in V. change (friction_coefficient im) with 0 in V. destruct V as (V1 & V2).
      set (x := position_of imj 0) in *. set (v := velocity_of imj 0) in *. set (x' := position_of imj' 0) in *. set (v' := velocity_of imj' 0) in *.
      assert (W1 : x' = - (7 / 2) * x + 3 * v) by (rewrite V1; field). assert (W2 : v' = 15 / 4 * x - 7 / 2 * v) by (assert (v' = v + 3 / 2 * (0 - x - 0 * v + (0 - x'))) by lra; rewrite W1 in H; lra).
      split; [|rewrite W1, W2; assert (0 <= x * x) by nra; assert (0 <= v * v) by nra; nra].
      cbn [pow]. assert (3 * Rabs x <= Rabs x').
      { rewrite W1. destruct (Rle_lt_dec 0 x) as [Hx|Hx].
        - destruct Hx as [Hx|Hx]; [assert (v <= 0) by nra; rewrite (Rabs_right x), Rabs_left1 by nra; lra|]. rewrite <- Hx, Rabs_R0. pose proof (Rabs_pos (- (7 / 2) * 0 + 3 * v)). lra.
        - assert (0 <= v) by nra. rewrite (Rabs_left x), Rabs_right by nra. lra. }
      lra.
    - lra. }
  destruct (Pow_x_infinity 3 ltac:(rewrite Rabs_right; lra) (B + 1)) as [N HN]. specialize (HN N (le_n _)). specialize (G N).
  rewrite Rabs_right in HN; [lra|]. apply Rle_ge, pow_le. lra.
Qed.

Definition inertial_bot_and_agent : inertial :=
  complete_inertial (field_settings (1/10) 0 (3/2) 0 2 1 [1%Z] [2]) (1/2) [mkInertial 2 1 1 0; mkInertial (-1) 1 (3/2) 0].
Lemma inertial_bot_ready : ad_ready (im_ad inertial_bot_and_agent).
Proof. apply complete_inertial_ready; [apply field_fit; cbn; try lia; constructor; [lia|constructor]|cbn; lia|cbn; lia]. Qed.
Example C83_instance k : exists im' s',
  inertial_run (a:=RA) real_libm mid_rng (list_pq RA) k inertial_bot_and_agent 0%nat = Ok (im', s') /\ position_of im' 0 = 2 /\
  let C := 2 / (3/2) * tanh (3/2 * 2) in let t := INR k * (1/10) in
  Rabs (position_of im' 1 - (if Rlt_dec (1/2) 2 then underdamped (1/2) C (-1) t else overdamped (1/2) C (-1) t)) <=
    t * ((1/10) ^ 2 * ((1 + 1/2) ^ 3 / 2 * Rabs (-1 - C)) + 6 / 5 * (1/10) * (Rabs (2 / (3/2)) * Rabs (3/2) * (Rabs 2 / (1/2)))).
Proof.
  exact (C83_one_bot real_libm mid_rng (list_pq RA) (fun _ => eq_refl) (list_pq_bag RA) eq_refl k inertial_bot_and_agent 0%nat 2
    inertial_bot_ready ltac:(cbn; lra) ltac:(cbn; lra) ltac:(cbn; lra) ltac:(cbn; lra) eq_refl eq_refl ltac:(repeat constructor; cbn; lra) eq_refl eq_refl eq_refl eq_refl eq_refl eq_refl eq_refl eq_refl).
Qed.

(** What one iteration does to the bot and the agent. *)
Lemma bot_iteration : exists im' s', inertial_iteration (a:=RA) real_libm mid_rng (list_pq RA) inertial_bot_and_agent 0%nat = Ok (im', s') /\
  row (ad_net (im_ad im')) 1 = [(0%nat, 1); (1%nat, 0)] /\ velocity_of im' 0 < 0 /\
  let C := 2 / (3/2) * tanh (3/2 * 2) in exists C', C' < C /\ verlet (1/10) (1/2) C C' (-1) 0 (position_of im' 1) (velocity_of im' 1).
Proof.
  destruct (inertial_iteration_ok (a:=RA) real_libm mid_rng (list_pq RA) inertial_bot_and_agent 0%nat (list_pq_bag RA) inertial_bot_ready) as (im' & s' & _ & _ & E & _).
  exists im', s'. split; [exact E|].
  destruct (inertial_two_rows real_libm mid_rng (list_pq RA) (list_pq_bag RA) eq_refl inertial_bot_and_agent im' 0%nat s' inertial_bot_ready eq_refl eq_refl
    ltac:(repeat constructor; cbn; lra) ltac:(cbn; lia) ltac:(cbn; lia) E) as (R0 & R1).
  assert (C0 : contact_count (a:=RA) (ad_set (im_ad inertial_bot_and_agent)) 0 = 1%nat) by reflexivity.
  assert (C1 : contact_count (a:=RA) (ad_set (im_ad inertial_bot_and_agent)) 1 = 0%nat) by reflexivity.
  rewrite C0, C1 in R0, R1. change (reciprocity (ad_set (im_ad inertial_bot_and_agent))) with 0 in R0, R1. cbn [INR] in R0, R1.
  assert (W1 : 1 + (1 - 1) * 0 * 0 = 1) by ring. assert (W0 : 0 + (1 - 0) * 0 * 1 = 0) by ring.
  assert (R1' : row (ad_net (im_ad im')) 1 = [(0%nat, 1); (1%nat, 0)]) by (rewrite R1; exact (f_equal (fun u : R => [(0%nat, u); (1%nat, 0)]) W1)).
  assert (R0' : row (ad_net (im_ad im')) 0 = [(0%nat, 0); (1%nat, 0)]) by (rewrite R0; exact (f_equal (fun u : R => [(0%nat, 0); (1%nat, u)]) W0)).
  split; [exact R1'|].
  destruct (inertial_components real_libm mid_rng (list_pq RA) (fun _ => eq_refl) (list_pq_bag RA) inertial_bot_and_agent im' 0%nat s' inertial_bot_ready E) as (moved & H).
  { cbn. lra. }
  destruct (H 0%nat ltac:(cbn; lia)) as ((A1 & A2) & _). destruct (H 1%nat ltac:(cbn; lia)) as ((B1 & B2) & B3 & _).
  rewrite R0' in A1, A2. rewrite R1' in B1, B2.
  set (st := ad_set (im_ad inertial_bot_and_agent)) in *.
  assert (NP : forall w rel, social_pull st rel [(0%nat, 0); (1%nat, 0)] w = 0) by (intros; unfold social_pull; cbn [map fst snd]; rewrite !Rsum_cons, Rsum_nil; ring).
  rewrite !NP in A1, A2. change (dt st) with (1/10) in *. change (friction_coefficient inertial_bot_and_agent) with (1/2) in *.
  change (position_of inertial_bot_and_agent 0) with 2 in *. change (velocity_of inertial_bot_and_agent 0) with 0 in *.
  change (position_of inertial_bot_and_agent 1) with (-1) in *. change (velocity_of inertial_bot_and_agent 1) with 0 in *.
  assert (M0 : moved 0%nat = 2 - 1 / 100) by (rewrite A1; field).
  rewrite (NP moved) in A2. split; [rewrite M0 in A2; lra|].
  assert (SP : forall w, social_pull st (inertial_reluctance inertial_bot_and_agent 1) [(0%nat, 1); (1%nat, 0)] w = 2 / (3/2) * tanh (3/2 * w 0%nat)).
  { intros w. unfold social_pull. cbn [map fst snd]. rewrite !Rsum_cons, Rsum_nil. change (K st) with 2. change (alpha st) with (3/2). change (inertial_reluctance inertial_bot_and_agent 1) with (3/2). ring. }
  rewrite !SP in B1, B2. rewrite (SP moved) in B2. change (position_of inertial_bot_and_agent 0) with 2 in *. exists (2 / (3/2) * tanh (3/2 * moved 0%nat)). split.
  - apply Rmult_lt_compat_l; [lra|]. apply tanh_increasing. rewrite M0. lra.
  - rewrite (B3 ltac:(cbn; lia)). split; [exact B1|exact B2].
Qed.
(** "A bot that starts at rest stays at rest" fails: its velocity (which is written to the output) changes. *)
Theorem C83_bots_at_rest_refuted :
  ~ (forall (im im' : inertial) s s' b, ad_ready (im_ad im) -> inertial_iteration (a:=RA) real_libm mid_rng (list_pq RA) im s = Ok (im', s') ->
       (b < n_bots (ad_set (im_ad im)))%nat -> inertial_bots_in_place im -> velocity_of im b = 0 -> velocity_of im' b = 0).
Proof.
  intros Claim. destruct bot_iteration as (im' & s' & E & _ & HV & _).
  specialize (Claim _ _ _ _ 0%nat inertial_bot_ready E ltac:(cbn; lia) ltac:(intros u Hu; assert (u = 0%nat) by (cbn in Hu; lia); subst u; reflexivity) eq_refl). lra.
Qed.
(** "Agents that hear only bots feel the configured bot opinions" fails for the second force of an iteration. *)
Theorem C83_bots_fixed_within_iteration_refuted :
  ~ (forall (im im' : inertial) s s' i, ad_ready (im_ad im) -> inertial_iteration (a:=RA) real_libm mid_rng (list_pq RA) im s = Ok (im', s') ->
       0 < friction_coefficient im -> 0 < dt (ad_set (im_ad im)) <= 1 ->
       inertial_bots_in_place im -> ordinary im i -> hears_only_bots (ad_set (im_ad im)) (row (ad_net (im_ad im')) i) ->
       let C := bot_target (ad_set (im_ad im)) (inertial_reluctance im i) (row (ad_net (im_ad im')) i) in
       let h := dt (ad_set (im_ad im)) in let mu := friction_coefficient im in
       position_of im' i = position_of im i + velocity_of im i * h + h ^ 2 / 2 * (C - position_of im i - mu * velocity_of im i) /\
       (1 + mu * h / 2) * velocity_of im' i = velocity_of im i + h / 2 * (C - position_of im i - mu * velocity_of im i + (C - position_of im' i))).
Proof.
  intros Claim. destruct bot_iteration as (im' & s' & E & R1 & _ & C' & HC & V1 & V2).
  specialize (Claim _ _ _ _ 1%nat inertial_bot_ready E ltac:(cbn; lra) ltac:(cbn; lra) ltac:(intros u Hu; assert (u = 0%nat) by (cbn in Hu; lia); subst u; reflexivity)
    ltac:(split; cbn; lia)). rewrite R1 in Claim. specialize (Claim ltac:(constructor; [right; cbn; lia|constructor; [left; reflexivity|constructor]])).
  cbv zeta in Claim. destruct Claim as (_ & P). set (st := ad_set (im_ad inertial_bot_and_agent)) in *.
  assert (EC : bot_target st (inertial_reluctance inertial_bot_and_agent 1) [(0%nat, 1); (1%nat, 0)] = 2 / (3/2) * tanh (3/2 * 2)).
  { unfold bot_target, social_pull. cbn [map fst snd]. rewrite !Rsum_cons, Rsum_nil. change (K st) with 2. change (alpha st) with (3/2). change (inertial_reluctance inertial_bot_and_agent 1) with (3/2).
    change (nth 0 (bot_opinion st) 0) with 2. ring. }
  rewrite EC in P. change (dt st) with (1/10) in P. change (friction_coefficient inertial_bot_and_agent) with (1/2) in P.
  change (position_of inertial_bot_and_agent 1) with (-1) in P. change (velocity_of inertial_bot_and_agent 1) with 0 in P. cbv zeta in HC. lra.
Qed.

Print Assumptions C81_energy_run.
Print Assumptions C81_frictionless.
Print Assumptions C81_comes_to_rest.
Print Assumptions C81_silent_population.
Print Assumptions C81_bounded_for_every_time_step_refuted.
Print Assumptions C82_follows_oscillator.
Print Assumptions C82_closed_form.
Print Assumptions C83_run.
Print Assumptions C83_one_bot.
Print Assumptions C83_bots_at_rest_refuted.
Print Assumptions C83_bots_fixed_within_iteration_refuted.
