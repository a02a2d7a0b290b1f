(** Velocity Verlet with implicit friction for one agent: the energy, and its norm. Pure real arithmetic. *)
From Verif Require Import Base RFacts SRelax SInertia.
From Coq Require Import Reals Lra Psatz.
Local Open Scope R_scope.

(** One step of an agent with pull [c] at the start and [c'] at the end of the step. *)
Definition verlet (h mu c c' x v x' v' : R) : Prop :=
  x' = x + v * h + h ^ 2 / 2 * (c - x - mu * v) /\
  (1 + mu * h / 2) * v' = v + h / 2 * (c - x - mu * v + (c' - x')).

(** The increments in terms of the sums. *)
Lemma verlet_increments h mu x v x' v' : verlet h mu 0 0 x v x' v' ->
  v' - v = - (h / 2) * (mu * (v + v') + (x + x')) /\
  (1 - h ^ 2 / 4) * (x' - x) = h / 2 * (v + v') + h ^ 2 / 4 * mu * (v' - v).
Proof. intros (E1 & E2). split; [lra|]. assert (h * ((1 + mu * h / 2) * v') = h * (v + h / 2 * (0 - x - mu * v + (0 - x')))) by now rewrite E2. subst x'. lra. Qed.

Lemma energy_balance h mu x v x' v' : verlet h mu 0 0 x v x' v' ->
  energy h x' v' = energy h x v - mu * h / 2 * ((v + v') ^ 2 + h ^ 2 / 4 * (x + x') ^ 2 + h ^ 2 / 4 * mu * (x + x') * (v + v')).
Proof.
  intros H. destruct (verlet_increments _ _ _ _ _ _ H) as (I1 & I2). unfold energy.
  assert (E : v' ^ 2 + (1 - h ^ 2 / 4) * x' ^ 2 = v ^ 2 + (1 - h ^ 2 / 4) * x ^ 2 + (v' - v) * (v + v') + (1 - h ^ 2 / 4) * (x' - x) * (x + x')) by ring.
  rewrite E, I2, I1. field.
Qed.

(** The dissipated form is positive definite. *)
Lemma dissipation_lower h mu X V : 0 < h -> 0 <= mu -> h * mu < 4 ->
  (1 - h * mu / 4) * (V ^ 2 + h ^ 2 / 4 * X ^ 2) <= V ^ 2 + h ^ 2 / 4 * X ^ 2 + h ^ 2 / 4 * mu * X * V.
Proof.
  intros Hh Hm H. set (Y := h / 2 * X). replace (h ^ 2 / 4 * X ^ 2) with (Y ^ 2) by (unfold Y; field).
  replace (h ^ 2 / 4 * mu * X * V) with (h * mu / 2 * (Y * V)) by (unfold Y; field).
  assert (0 <= h * mu) by nra. assert (0 <= (Y + V) ^ 2) by apply pow2_ge_0. nra.
Qed.

Lemma energy_decreases h mu x v x' v' : 0 < h -> 0 <= mu -> h * mu <= 4 -> verlet h mu 0 0 x v x' v' -> energy h x' v' <= energy h x v.
Proof.
  intros Hh Hm H HV. rewrite (energy_balance _ _ _ _ _ _ HV).
  assert (0 <= (v + v') ^ 2 + h ^ 2 / 4 * (x + x') ^ 2 + h ^ 2 / 4 * mu * (x + x') * (v + v')).
  { generalize (x + x') (v + v'). intros X V. set (Y := h / 2 * X). replace (h ^ 2 / 4 * X ^ 2) with (Y ^ 2) by (unfold Y; field).
    replace (h ^ 2 / 4 * mu * X * V) with (h * mu / 2 * (Y * V)) by (unfold Y; field).
    assert (0 <= h * mu) by nra. assert (0 <= (Y + V) ^ 2) by apply pow2_ge_0. assert (0 <= (Y - V) ^ 2) by apply pow2_ge_0. nra. }
  assert (0 <= mu * h / 2) by nra. nra.
Qed.

(** The energy is bounded by the sums of a step: v = (V - (v' - v)) / 2 and so on. *)
Lemma energy_by_sums h mu x v x' v' : 0 < h < 2 -> 0 <= mu -> h * mu < 4 -> verlet h mu 0 0 x v x' v' ->
  (1 - h ^ 2 / 4) * energy h x v <= (4 + h ^ 2 / 4) * 50 / h ^ 2 * ((v + v') ^ 2 + h ^ 2 / 4 * (x + x') ^ 2).
Proof.
  intros Hh Hm H HV. destruct (verlet_increments _ _ _ _ _ _ HV) as (I1 & I2).
  set (V := v + v') in *. set (Y := h / 2 * (x + x')). set (D := 1 - h ^ 2 / 4) in *. assert (HD : 0 < D < 1) by (unfold D; nra).
  set (q := h * mu) in *. assert (Hq : 0 <= q < 4) by (split; [unfold q; nra|exact H]).
  assert (Ev : v' - v = - (q / 2 * V) - Y) by (unfold Y, q; rewrite I1; field).
  assert (Ex : D * (x' - x) = h / 2 * V + h / 4 * q * (v' - v)) by (rewrite I2; unfold q; field).
  rewrite Ev in Ex.
  assert (Vv : v = (V + q / 2 * V + Y) / 2) by (unfold V in *; lra).
  assert (Xx : h * D * x = D * Y - h / 2 * (h / 2 * V + h / 4 * q * (- (q / 2 * V) - Y))).
  { rewrite <- Ex. unfold Y. field. }
  assert (B1 : v ^ 2 <= 5 * (V ^ 2 + Y ^ 2)).
  { assert (Z : 2 * v = (1 + q / 2) * V + Y) by lra. assert (Z2 : 4 * v ^ 2 = ((1 + q / 2) * V + Y) ^ 2) by (rewrite <- Z; ring).
    assert (0 <= ((1 + q / 2) * Y - V) ^ 2) by apply pow2_ge_0. assert ((1 + q / 2) ^ 2 <= 9) by nra. nra. }
  assert (B2 : (h * D * x) ^ 2 <= 50 * (V ^ 2 + Y ^ 2)).
  { set (A := - (h / 2) * (h / 2 - h / 8 * q ^ 2)). set (B := D + h ^ 2 / 8 * q).
    assert (Z : h * D * x = A * V + B * Y) by (rewrite Xx; unfold A, B; field).
    assert (HA : A ^ 2 <= 9). { assert (-1 <= A <= 3) by (unfold A; split; [nra|]; assert (h ^ 2 <= 4) by nra; assert (q ^ 2 <= 16) by nra; nra). nra. }
    assert (HB : B ^ 2 <= 9). { assert (0 <= B <= 3) by (unfold B; split; [assert (0 <= h ^ 2 * q) by (apply Rmult_le_pos; nra); nra|]; assert (h ^ 2 <= 4) by nra; nra). nra. }
    rewrite Z. assert (0 <= (A * Y - B * V) ^ 2) by apply pow2_ge_0. assert ((A * V + B * Y) ^ 2 <= (A ^ 2 + B ^ 2) * (V ^ 2 + Y ^ 2)) by nra.
    assert (0 <= V ^ 2 + Y ^ 2) by nra. nra. }
  replace (h ^ 2 / 4 * (x + x') ^ 2) with (Y ^ 2) by (unfold Y; field).
  set (N := V ^ 2 + Y ^ 2) in *. assert (HN : 0 <= N) by (unfold N; nra).
  apply Rmult_le_reg_l with (h ^ 2); [nra|].
  replace (h ^ 2 * ((4 + h ^ 2 / 4) * 50 / h ^ 2 * N)) with ((4 + h ^ 2 / 4) * 50 * N) by (field; lra).
  unfold energy. fold D. replace (h ^ 2 * (D * (v ^ 2 + D * x ^ 2))) with (h ^ 2 * D * v ^ 2 + (h * D * x) ^ 2) by ring.
  assert (h ^ 2 * D <= 1) by (unfold D; assert (0 <= (h ^ 2 / 2 - 1) ^ 2) by apply pow2_ge_0; nra). assert (0 <= h ^ 2 * D) by nra.
  assert (h ^ 2 * D * v ^ 2 <= 1 * (5 * N)) by (apply Rmult_le_compat; nra). nra.
Qed.

(** Geometric decay of the energy. *)
Lemma energy_decays h mu x v x' v' : 0 < h < 2 -> 0 <= mu -> h * mu < 4 -> verlet h mu 0 0 x v x' v' ->
  energy h x' v' <= energy_rate h mu * energy h x v.
Proof.
  intros Hh Hm H HV. rewrite (energy_balance _ _ _ _ _ _ HV).
  pose proof (dissipation_lower h mu (x + x') (v + v') (proj1 Hh) Hm H) as L. pose proof (energy_by_sums h mu x v x' v' Hh Hm H HV) as U.
  set (N := (v + v') ^ 2 + h ^ 2 / 4 * (x + x') ^ 2) in *. set (Q := N + h ^ 2 / 4 * mu * (x + x') * (v + v')) in *.
  set (c := (4 + h ^ 2 / 4) * 50) in *. assert (Hc : 0 < c) by (unfold c; nra). set (D := 1 - h ^ 2 / 4) in *. assert (HD : 0 < D) by (unfold D; nra).
  assert (U' : D * h ^ 2 / c * energy h x v <= N).
  { apply Rmult_le_reg_l with (c / h ^ 2); [apply Rdiv_lt_0_compat; nra|]. replace (c / h ^ 2 * (D * h ^ 2 / c * energy h x v)) with (D * energy h x v) by (field; split; nra). exact U. }
  unfold energy_rate. fold D c.
  assert (Hq : 0 < 1 - h * mu / 4) by lra.
  assert (A : (1 - h * mu / 4) * D * h ^ 2 / c * energy h x v <= Q).
  { eapply Rle_trans; [|exact L]. replace ((1 - h * mu / 4) * D * h ^ 2 / c * energy h x v) with ((1 - h * mu / 4) * (D * h ^ 2 / c * energy h x v)) by (field; lra).
    apply Rmult_le_compat_l; lra. }
  assert (0 <= mu * h / 2) by nra.
  assert (B : mu * h / 2 * ((1 - h * mu / 4) * D * h ^ 2 / c * energy h x v) <= mu * h / 2 * Q) by (apply Rmult_le_compat_l; auto).
  lra.
Qed.
Lemma energy_rate_bounds h mu : 0 < h < 2 -> 0 < mu -> h * mu < 4 -> 0 < energy_rate h mu < 1.
Proof.
  intros Hh Hm H. unfold energy_rate. set (c := (4 + h ^ 2 / 4) * 50). assert (Hc : 200 < c) by (unfold c; nra).
  set (P := (1 - h * mu / 4) * (1 - h ^ 2 / 4) * h ^ 2).
  assert (HP : 0 < P < 4).
  { unfold P. assert (0 < h * mu) by nra. assert (0 < 1 - h ^ 2 / 4 < 1) by nra. assert (0 < (1 - h * mu / 4) * (1 - h ^ 2 / 4) < 1) by nra. assert (0 < h ^ 2 < 4) by nra. nra. }
  assert (0 < P / c < 1 / 50).
  { split; [apply Rdiv_lt_0_compat; lra|]. apply Rmult_lt_reg_r with c; [lra|]. replace (P / c * c) with P by (field; lra). lra. }
  assert (0 < mu * h / 2 < 2) by nra. nra.
Qed.

(** The energy as the square of a norm. *)
Definition enorm (h x v : R) : R := sqrt (energy h x v).
Lemma energy_nonneg h x v : 0 <= h < 2 -> 0 <= energy h x v.
Proof. intros H. unfold energy. assert (0 < 1 - h ^ 2 / 4) by nra. assert (0 <= x ^ 2) by apply pow2_ge_0. assert (0 <= v ^ 2) by apply pow2_ge_0. nra. Qed.
Lemma enorm_triangle h x v y w : 0 <= h < 2 -> enorm h (x + y) (v + w) <= enorm h x v + enorm h y w.
Proof.
  intros H. assert (HD : 0 < 1 - h ^ 2 / 4) by nra. set (d := sqrt (1 - h ^ 2 / 4)).
  assert (Ed : d * d = 1 - h ^ 2 / 4) by (apply sqrt_sqrt; lra).
  assert (T : forall p r, enorm h p r = sqrt (Rsqr r + Rsqr (d * p))).
  { intros p r. unfold enorm, energy. f_equal. rewrite <- Ed. unfold Rsqr. ring. }
  rewrite !T. pose proof (triangle (v + w) (d * (x + y)) 0 0 w (d * y)) as P. unfold dist_euc in P.
  replace (v + w - 0) with (v + w) in P by ring. replace (d * (x + y) - 0) with (d * (x + y)) in P by ring.
  replace (v + w - w) with v in P by ring. replace (d * (x + y) - d * y) with (d * x) in P by ring. rewrite !Rminus_0_r in P. exact P.
Qed.
Lemma enorm_simple h x v : 0 <= h < 2 -> enorm h x v <= Rabs x + Rabs v.
Proof.
  intros H. unfold enorm. rewrite <- (sqrt_Rsqr (Rabs x + Rabs v)); [|pose proof (Rabs_pos x); pose proof (Rabs_pos v); lra].
  apply sqrt_le_1_alt. unfold energy, Rsqr. rewrite <- (pow2_abs x), <- (pow2_abs v). pose proof (Rabs_pos x). pose proof (Rabs_pos v).
  assert (0 <= 1 - h ^ 2 / 4 <= 1) by nra. assert (0 <= Rabs x ^ 2) by apply pow2_ge_0. nra.
Qed.
Lemma enorm_position h x v : 0 <= h <= 1 -> Rabs x <= 6 / 5 * enorm h x v.
Proof.
  intros H. apply Rsqr_incr_0_var; [|pose proof (sqrt_pos (energy h x v)); unfold enorm; lra].
  unfold Rsqr. replace (6 / 5 * enorm h x v * (6 / 5 * enorm h x v)) with (36 / 25 * (enorm h x v * enorm h x v)) by field.
  unfold enorm. rewrite sqrt_sqrt by (apply energy_nonneg; lra). replace (Rabs x * Rabs x) with (x ^ 2) by (rewrite <- (pow2_abs x); ring).
  unfold energy. assert (h ^ 2 <= 1) by nra. assert (0 <= x ^ 2) by apply pow2_ge_0. assert (0 <= v ^ 2) by apply pow2_ge_0. nra.
Qed.
Lemma enorm_velocity h x v : 0 <= h < 2 -> Rabs v <= enorm h x v.
Proof.
  intros H. apply Rsqr_incr_0_var; [|unfold enorm; apply sqrt_pos].
  unfold Rsqr, enorm. rewrite sqrt_sqrt by (apply energy_nonneg; lra). replace (Rabs v * Rabs v) with (v ^ 2) by (rewrite <- (pow2_abs v); ring).
  unfold energy. assert (0 <= 1 - h ^ 2 / 4) by nra. assert (0 <= x ^ 2) by apply pow2_ge_0. nra.
Qed.
Lemma enorm_step h mu x v x' v' : 0 < h < 2 -> 0 <= mu -> h * mu <= 4 -> verlet h mu 0 0 x v x' v' -> enorm h x' v' <= enorm h x v.
Proof. intros H1 H2 H3 H4. apply sqrt_le_1_alt. eapply energy_decreases; eauto. lra. Qed.
Lemma enorm_0 h : enorm h 0 0 = 0.
Proof. unfold enorm, energy. replace (0 ^ 2 + (1 - h ^ 2 / 4) * 0 ^ 2) with 0 by ring. apply sqrt_0. Qed.

(** A step with perturbations [r1] of the position and [r2] of the velocity equation. *)
Lemma perturbed_step h mu x v x' v' r1 r2 : 0 < h < 2 -> 0 <= mu -> h * mu <= 4 ->
  x' = x + v * h + h ^ 2 / 2 * (- x - mu * v) + r1 ->
  (1 + mu * h / 2) * v' = v + h / 2 * (- x - mu * v - x') + r2 ->
  enorm h x' v' <= enorm h x v + (1 + h / 2) * Rabs r1 + Rabs r2.
Proof.
  intros Hh Hm H E1 E2. set (x0 := x + v * h + h ^ 2 / 2 * (- x - mu * v)). set (s := 1 + mu * h / 2). assert (Hs : 1 <= s) by (unfold s; nra).
  set (v0 := (v + h / 2 * (- x - mu * v - x0)) / s).
  assert (HV : verlet h mu 0 0 x v x0 v0). { split; [unfold x0; ring|]. fold s. unfold v0. field. lra. }
  pose proof (enorm_step h mu x v x0 v0 Hh Hm H HV) as P.
  assert (Ev : v' = v0 + (r2 - h / 2 * r1) / s).
  { apply Rmult_eq_reg_l with s; [|lra]. fold s in E2. rewrite E2, E1. fold x0. unfold v0. field. lra. }
  assert (Ex : x' = x0 + r1) by exact E1.
  rewrite Ex, Ev. eapply Rle_trans; [apply enorm_triangle; lra|]. pose proof (enorm_simple h r1 ((r2 - h / 2 * r1) / s) ltac:(lra)) as Q.
  assert (B : Rabs ((r2 - h / 2 * r1) / s) <= Rabs r2 + h / 2 * Rabs r1).
  { unfold Rdiv. rewrite Rabs_mult, (Rabs_right (/ s)) by (apply Rle_ge, Rlt_le, Rinv_0_lt_compat; lra).
    assert (0 < / s <= 1) by (split; [apply Rinv_0_lt_compat; lra|rewrite <- Rinv_1; apply Rinv_le_contravar; lra]).
    assert (Rabs (r2 - h * / 2 * r1) <= Rabs r2 + h * / 2 * Rabs r1).
    { unfold Rminus. eapply Rle_trans; [apply Rabs_triang|]. rewrite Rabs_Ropp, Rabs_mult, (Rabs_right (h * / 2)) by lra. lra. }
    pose proof (Rabs_pos (r2 - h * / 2 * r1)). nra. }
  lra.
Qed.
