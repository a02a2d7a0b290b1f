(** The damped oscillator: energy, uniqueness, explicit solutions, and the local error of the Verlet step. *)
From Verif Require Import Base RFacts SRelax SInertia PInertia.
From Coq Require Import Reals Lra Psatz.
Local Open Scope R_scope.

Lemma limit_eq f x l l' : derivable_pt_lim f x l -> l = l' -> derivable_pt_lim f x l'.
Proof. now intros H ->. Qed.
Lemma lim_const c x : derivable_pt_lim (fun _ => c) x 0.
Proof. apply derivable_pt_lim_const. Qed.
Lemma lim_scal c f x l : derivable_pt_lim f x l -> derivable_pt_lim (fun t => c * f t) x (c * l).
Proof. apply derivable_pt_lim_scal. Qed.
Lemma lim_plus f g x l m : derivable_pt_lim f x l -> derivable_pt_lim g x m -> derivable_pt_lim (fun t => f t + g t) x (l + m).
Proof. apply derivable_pt_lim_plus. Qed.
Lemma lim_minus f g x l m : derivable_pt_lim f x l -> derivable_pt_lim g x m -> derivable_pt_lim (fun t => f t - g t) x (l - m).
Proof. apply derivable_pt_lim_minus. Qed.
Lemma lim_mult f g x l m : derivable_pt_lim f x l -> derivable_pt_lim g x m -> derivable_pt_lim (fun t => f t * g t) x (l * g x + f x * m).
Proof. apply derivable_pt_lim_mult. Qed.
Lemma lim_shift f t s l : derivable_pt_lim f (t + s) l -> derivable_pt_lim (fun s => f (t + s)) s l.
Proof.
  intros H. assert (P : derivable_pt_lim (comp f (fun s => t + s)) s (l * (0 + 1))).
  { apply derivable_pt_lim_comp; [|exact H]. apply (derivable_pt_lim_plus (fct_cte t) id); [apply derivable_pt_lim_const|apply derivable_pt_lim_id]. }
  eapply limit_eq; [exact P|ring].
Qed.
Lemma lim_pow n x : derivable_pt_lim (fun s => s ^ S n) x (INR (S n) * x ^ n).
Proof. exact (derivable_pt_lim_pow x (S n)). Qed.

Lemma nonincreasing (f f' : R -> R) a b : a <= b -> (forall t, a <= t <= b -> derivable_pt_lim f t (f' t)) ->
  (forall t, a <= t <= b -> f' t <= 0) -> f b <= f a.
Proof.
  intros [H|<-] D N; [|lra]. destruct (MVT_cor2 f f' a b H D) as (c & E & Hc). specialize (N c ltac:(lra)). nra.
Qed.

(** If a function starts at 0 and its slope is at most B s^n, it is at most B s^(n+1) / (n+1). *)
Lemma growth (f f' : R -> R) h B n : f 0 = 0 -> (forall s, 0 <= s <= h -> derivable_pt_lim f s (f' s)) ->
  (forall s, 0 <= s <= h -> Rabs (f' s) <= B * s ^ n) -> forall s, 0 <= s <= h -> Rabs (f s) <= B / INR (S n) * s ^ S n.
Proof.
  intros H0 D L s Hs. assert (HN : 0 < INR (S n)) by (apply lt_0_INR; lia).
  assert (DP : forall t, derivable_pt_lim (fun s => B / INR (S n) * s ^ S n) t (B * t ^ n)).
  { intros t. eapply limit_eq; [apply lim_scal, lim_pow|]. field. lra. }
  assert (Z : B / INR (S n) * 0 ^ S n = 0) by (cbn [pow]; ring).
  assert (U : f s - B / INR (S n) * s ^ S n <= f 0 - B / INR (S n) * 0 ^ S n).
  { apply (nonincreasing (fun s => f s - B / INR (S n) * s ^ S n) (fun s => f' s - B * s ^ n) 0 s); [lra| |].
    - intros t Ht. apply lim_minus; [apply D; lra|apply DP].
    - intros t Ht. specialize (L t ltac:(lra)). pose proof (Rle_abs (f' t)). lra. }
  assert (W : - f s - B / INR (S n) * s ^ S n <= - f 0 - B / INR (S n) * 0 ^ S n).
  { apply (nonincreasing (fun s => - f s - B / INR (S n) * s ^ S n) (fun s => - f' s - B * s ^ n) 0 s); [lra| |].
    - intros t Ht. apply lim_minus; [|apply DP]. apply derivable_pt_lim_opp. apply D; lra.
    - intros t Ht. specialize (L t ltac:(lra)). pose proof (Rle_abs (- f' t)). rewrite Rabs_Ropp in *. lra. }
  rewrite H0, Z in U, W. apply Rabs_le. lra.
Qed.

Section Solution.
Variables (mu c : R) (y z : R -> R).
Hypothesis Hmu : 0 <= mu.
Hypothesis HS : damped_oscillator mu c y z.

Let u t := y t - c.
Let a t := - (y t - c) - mu * z t.
Let j t := - z t - mu * a t.
Let q t := - a t - mu * j t.
Lemma du t : derivable_pt_lim u t (z t).
Proof using HS. eapply limit_eq; [apply lim_minus; [apply HS|apply lim_const]|ring]. Qed.
Lemma dz t : derivable_pt_lim z t (a t).
Proof using HS. apply HS. Qed.
Lemma da t : derivable_pt_lim a t (j t).
Proof using HS. apply lim_minus; [apply derivable_pt_lim_opp, du|apply lim_scal, dz]. Qed.
Lemma dj t : derivable_pt_lim j t (q t).
Proof using HS. apply lim_minus; [apply derivable_pt_lim_opp, dz|apply lim_scal, da]. Qed.

Lemma solution_energy s t : s <= t -> u t ^ 2 + z t ^ 2 <= u s ^ 2 + z s ^ 2.
Proof using Hmu HS.
  intros H. apply (nonincreasing (fun t => u t ^ 2 + z t ^ 2) (fun t => - (2 * mu * z t ^ 2)) s t H).
  - intros r Hr. eapply limit_eq; [apply lim_plus|].
    + eapply limit_eq; [|reflexivity]. assert (E : forall f : R -> R, (fun t => f t ^ 2) = (fun t => f t * f t)) by (intros; apply FunctionalExtensionality.functional_extensionality; intros; ring).
      rewrite E. apply lim_mult; apply du.
    + assert (E : (fun t => z t ^ 2) = (fun t => z t * z t)) by (apply FunctionalExtensionality.functional_extensionality; intros; ring).
      rewrite E. apply lim_mult; apply dz.
    + unfold u, a. ring.
  - intros r Hr. assert (0 <= z r ^ 2) by apply pow2_ge_0. nra.
Qed.

Variables (t0 M : R).
Hypothesis HM : 0 <= M.
Hypothesis HE : u t0 ^ 2 + z t0 ^ 2 <= M ^ 2.
Lemma solution_bounds t : t0 <= t -> Rabs (u t) <= M /\ Rabs (z t) <= M /\ Rabs (j t) <= (1 + mu + mu ^ 2) * M /\ Rabs (q t) <= (1 + 2 * mu + mu ^ 2 + mu ^ 3) * M.
Proof using Hmu HS HM HE.
  intros H. pose proof (solution_energy t0 t H) as E.
  assert (Bu : Rabs (u t) <= M).
  { apply Rsqr_incr_0_var; auto. unfold Rsqr. replace (Rabs (u t) * Rabs (u t)) with (u t ^ 2) by (rewrite <- (pow2_abs (u t)); ring). assert (0 <= z t ^ 2) by apply pow2_ge_0. lra. }
  assert (Bz : Rabs (z t) <= M).
  { apply Rsqr_incr_0_var; auto. unfold Rsqr. replace (Rabs (z t) * Rabs (z t)) with (z t ^ 2) by (rewrite <- (pow2_abs (z t)); ring). assert (0 <= u t ^ 2) by apply pow2_ge_0. lra. }
  assert (T : forall p r A B, Rabs p <= A -> Rabs r <= B -> Rabs (- p - mu * r) <= A + mu * B).
  { intros p r A B H1 H2. unfold Rminus. eapply Rle_trans; [apply Rabs_triang|]. rewrite !Rabs_Ropp, Rabs_mult, (Rabs_right mu) by lra. nra. }
  assert (Ba : Rabs (a t) <= (1 + mu) * M) by (eapply Rle_trans; [apply (T (u t) (z t) M M); auto|lra]).
  assert (Bj : Rabs (j t) <= (1 + mu + mu ^ 2) * M) by (eapply Rle_trans; [apply (T (z t) (a t) M ((1 + mu) * M)); auto|nra]).
  split; auto. split; auto. split; auto. eapply Rle_trans; [apply (T (a t) (j t) ((1 + mu) * M) ((1 + mu + mu ^ 2) * M)); auto|nra].
Qed.

(** The local errors of the position and of the velocity formula. *)
Lemma position_error h : 0 <= h ->
  Rabs (u (t0 + h) - (u t0 + z t0 * h + h ^ 2 / 2 * (- u t0 - mu * z t0))) <= (1 + mu + mu ^ 2) * M / 6 * h ^ 3.
Proof using Hmu HS HM HE.
  intros Hh. set (B := (1 + mu + mu ^ 2) * M).
  assert (G1 : forall s, 0 <= s <= h -> Rabs (a (t0 + s) - a t0) <= B / INR 1 * s ^ 1).
  { apply (growth (fun s => a (t0 + s) - a t0) (fun s => j (t0 + s)) h B 0).
    - rewrite Rplus_0_r. ring.
    - intros s Hs. eapply limit_eq; [apply lim_minus; [apply lim_shift, da|apply lim_const]|ring].
    - intros s Hs. rewrite pow_O, Rmult_1_r. apply solution_bounds. lra. }
  assert (G2 : forall s, 0 <= s <= h -> Rabs (z (t0 + s) - z t0 - a t0 * s) <= B / INR 1 / INR 2 * s ^ 2).
  { apply (growth (fun s => z (t0 + s) - z t0 - a t0 * s) (fun s => a (t0 + s) - a t0) h (B / INR 1) 1).
    - rewrite Rplus_0_r. ring.
    - intros s Hs. eapply limit_eq; [apply lim_minus; [apply lim_minus; [apply lim_shift, dz|apply lim_const]|apply lim_scal, derivable_pt_lim_id]|ring].
    - exact G1. }
  assert (G3 : forall s, 0 <= s <= h -> Rabs (u (t0 + s) - u t0 - z t0 * s - a t0 / 2 * s ^ 2) <= B / INR 1 / INR 2 / INR 3 * s ^ 3).
  { apply (growth (fun s => u (t0 + s) - u t0 - z t0 * s - a t0 / 2 * s ^ 2) (fun s => z (t0 + s) - z t0 - a t0 * s) h (B / INR 1 / INR 2) 2).
    - rewrite Rplus_0_r. ring.
    - intros s Hs. eapply limit_eq; [apply lim_minus; [apply lim_minus; [apply lim_minus; [apply lim_shift, du|apply lim_const]|apply lim_scal, derivable_pt_lim_id]|apply lim_scal, (lim_pow 1)]|].
      change (INR 2) with (1 + 1). field.
    - exact G2. }
  specialize (G3 h ltac:(lra)). change (INR 3) with (1 + 1 + 1) in G3. change (INR 2) with (1 + 1) in G3. change (INR 1) with 1 in G3.
  replace (u (t0 + h) - (u t0 + z t0 * h + h ^ 2 / 2 * (- u t0 - mu * z t0))) with (u (t0 + h) - u t0 - z t0 * h - a t0 / 2 * h ^ 2) by (unfold a, u; field).
  replace (B / 6 * h ^ 3) with (B / 1 / (1 + 1) / (1 + 1 + 1) * h ^ 3) by field. exact G3.
Qed.
Lemma velocity_error h : 0 <= h ->
  Rabs ((1 + mu * h / 2) * z (t0 + h) - (z t0 + h / 2 * (- u t0 - mu * z t0 - u (t0 + h)))) <= (1 + 2 * mu + mu ^ 2 + mu ^ 3) * M / 12 * h ^ 3.
Proof using Hmu HS HM HE.
  intros Hh. set (B := (1 + 2 * mu + mu ^ 2 + mu ^ 3) * M).
  assert (G1 : forall s, 0 <= s <= h -> Rabs (/ 2 * (a (t0 + s) - a t0) - / 2 * (s * j (t0 + s))) <= B / 2 / INR 2 * s ^ 2).
  { apply (growth (fun s => / 2 * (a (t0 + s) - a t0) - / 2 * (s * j (t0 + s))) (fun s => - (/ 2 * (s * q (t0 + s)))) h (B / 2) 1).
    - rewrite Rplus_0_r. ring.
    - intros s Hs. eapply limit_eq; [apply lim_minus; [apply lim_scal, lim_minus; [apply lim_shift, da|apply lim_const]|apply lim_scal, lim_mult; [apply derivable_pt_lim_id|apply lim_shift, dj]]|]. unfold id. field.
    - intros s Hs. rewrite Rabs_Ropp, !Rabs_mult, (Rabs_right (/ 2)), (Rabs_right s) by lra. rewrite pow_1.
      assert (Q : Rabs (q (t0 + s)) <= B) by (apply solution_bounds; lra). nra. }
  assert (G2 : forall s, 0 <= s <= h -> Rabs (z (t0 + s) - z t0 - / 2 * (s * (a t0 + a (t0 + s)))) <= B / 2 / INR 2 / INR 3 * s ^ 3).
  { apply (growth (fun s => z (t0 + s) - z t0 - / 2 * (s * (a t0 + a (t0 + s)))) (fun s => / 2 * (a (t0 + s) - a t0) - / 2 * (s * j (t0 + s))) h (B / 2 / INR 2) 2).
    - rewrite Rplus_0_r. ring.
    - intros s Hs. eapply limit_eq; [apply lim_minus; [apply lim_minus; [apply lim_shift, dz|apply lim_const]|apply lim_scal, lim_mult; [apply derivable_pt_lim_id|apply lim_plus; [apply lim_const|apply lim_shift, da]]]|]. unfold id. field.
    - exact G1. }
  specialize (G2 h ltac:(lra)). change (INR 3) with (1 + 1 + 1) in G2. change (INR 2) with (1 + 1) in G2.
  replace ((1 + mu * h / 2) * z (t0 + h) - (z t0 + h / 2 * (- u t0 - mu * z t0 - u (t0 + h)))) with (z (t0 + h) - z t0 - / 2 * (h * (a t0 + a (t0 + h)))) by (unfold a, u; field).
  replace (B / 12 * h ^ 3) with (B / 2 / (1 + 1) / (1 + 1 + 1) * h ^ 3) by field. exact G2.
Qed.
End Solution.

(** Two solutions with the same initial values agree from then on. *)
Lemma oscillator_unique mu c y z y' z' : 0 <= mu -> damped_oscillator mu c y z -> damped_oscillator mu c y' z' -> y 0 = y' 0 -> z 0 = z' 0 ->
  forall t, 0 <= t -> y t = y' t /\ z t = z' t.
Proof.
  intros Hm H H' E1 E2 t Ht.
  assert (HD : damped_oscillator mu 0 (fun t => y t - y' t) (fun t => z t - z' t)).
  { intros s. destruct (H s) as (A1 & A2), (H' s) as (B1 & B2). split; [now apply lim_minus|]. eapply limit_eq; [apply lim_minus; eassumption|ring]. }
  pose proof (solution_energy mu 0 _ _ Hm HD 0 t Ht) as P. cbv beta in P. rewrite E1, E2 in P.
  assert (0 <= (y t - y' t - 0) ^ 2) by apply pow2_ge_0. assert (0 <= (z t - z' t) ^ 2) by apply pow2_ge_0.
  assert (Q1 : (y t - y' t) ^ 2 = 0) by (replace (y t - y' t) with (y t - y' t - 0) by ring; nra). assert (Q2 : (z t - z' t) ^ 2 = 0) by nra.
  assert (G : forall w, w ^ 2 = 0 -> w = 0) by (intros w Hw; destruct (Req_dec w 0) as [|N]; auto; exfalso; exact (pow_nonzero w 2 N Hw)). apply G in Q1, Q2. lra.
Qed.

(** The explicit solutions. *)
Lemma lim_exp k t : derivable_pt_lim (fun t => exp (k * t)) t (k * exp (k * t)).
Proof.
  assert (P : derivable_pt_lim (comp exp (fun t => k * t)) t (exp (k * t) * (k * 1))).
  { apply derivable_pt_lim_comp; [apply lim_scal, derivable_pt_lim_id|apply derivable_pt_lim_exp]. }
  eapply limit_eq; [exact P|ring].
Qed.
Lemma lim_cos k t : derivable_pt_lim (fun t => cos (k * t)) t (- k * sin (k * t)).
Proof.
  assert (P : derivable_pt_lim (comp cos (fun t => k * t)) t (- sin (k * t) * (k * 1))).
  { apply derivable_pt_lim_comp; [apply lim_scal, derivable_pt_lim_id|apply derivable_pt_lim_cos]. }
  eapply limit_eq; [exact P|ring].
Qed.
Lemma lim_sin k t : derivable_pt_lim (fun t => sin (k * t)) t (k * cos (k * t)).
Proof.
  assert (P : derivable_pt_lim (comp sin (fun t => k * t)) t (cos (k * t) * (k * 1))).
  { apply derivable_pt_lim_comp; [apply lim_scal, derivable_pt_lim_id|apply derivable_pt_lim_sin]. }
  eapply limit_eq; [exact P|ring].
Qed.
Lemma lim_ext (f g : R -> R) t l : (forall s, f s = g s) -> derivable_pt_lim f t l -> derivable_pt_lim g t l.
Proof. intros E. assert (f = g) by (apply FunctionalExtensionality.functional_extensionality; exact E). now subst. Qed.

Lemma overdamped_solution mu c x0 : 2 < mu -> exists z, damped_oscillator mu c (overdamped mu c x0) z /\ overdamped mu c x0 0 = x0 /\ z 0 = 0.
Proof.
  intros H. unfold overdamped. set (w := sqrt (mu ^ 2 - 4)). assert (Ew : w * w = mu ^ 2 - 4) by (apply sqrt_sqrt; nra).
  assert (Hw : 0 < w) by (apply sqrt_lt_R0; nra). assert (Hlt : w < mu) by nra.
  cbv zeta. set (a1 := (- w - mu) / 2). set (a2 := (w - mu) / 2). assert (Ha : a2 < 0) by (unfold a2; lra). assert (Hd : a1 < a2) by (unfold a1, a2; lra).
  assert (Q1 : a1 * a1 = - 1 - mu * a1) by (unfold a1; lra). assert (Q2 : a2 * a2 = - 1 - mu * a2) by (unfold a2; lra).
  set (c1 := (x0 - c) / (1 - a1 / a2)). set (c2 := - c1 * a1 / a2).
  assert (Hn : a2 - a1 <> 0) by lra.
  exists (fun t => c1 * (a1 * exp (a1 * t)) + c2 * (a2 * exp (a2 * t))). split.
  - intros t. split.
    + eapply limit_eq; [apply lim_plus; [apply lim_plus; apply lim_scal, lim_exp|apply lim_const]|ring].
    + eapply limit_eq; [apply lim_plus; apply lim_scal, lim_scal, lim_exp|].
      transitivity (c1 * (a1 * a1) * exp (a1 * t) + c2 * (a2 * a2) * exp (a2 * t)); [ring|]. rewrite Q1, Q2. ring.
  - rewrite !Rmult_0_r, exp_0. split.
    + unfold c2, c1. field. split; lra.
    + unfold c2. field. lra.
Qed.
Lemma underdamped_solution mu c x0 : 0 <= mu < 2 -> exists z, damped_oscillator mu c (underdamped mu c x0) z /\ underdamped mu c x0 0 = x0 /\ z 0 = 0.
Proof.
  intros H. unfold underdamped. set (w := sqrt (4 - mu ^ 2) / 2).
  assert (Ew : w * w = 1 - mu ^ 2 / 4). { unfold w. assert (sqrt (4 - mu ^ 2) * sqrt (4 - mu ^ 2) = 4 - mu ^ 2) by (apply sqrt_sqrt; nra). lra. }
  assert (Hw : 0 < w) by (unfold w; assert (0 < sqrt (4 - mu ^ 2)) by (apply sqrt_lt_R0; nra); lra).
  cbv zeta. set (k := - mu / 2). set (b := mu / (2 * w)). assert (Eb : b * w = mu / 2) by (unfold b; field; lra).
  exists (fun t => (x0 - c) * exp (k * t) * ((k + b * w) * cos (w * t) + (k * b - w) * sin (w * t))). 
  assert (EX : forall s, (x0 - c) * exp (k * s) * (cos (w * s) + b * sin (w * s)) + c = (x0 - c) * exp (- mu * s / 2) * (cos (w * s) + b * sin (w * s)) + c).
  { intros s. do 4 f_equal. unfold k. field. }
  split.
  - intros t. split.
    + apply (lim_ext _ _ _ _ EX). eapply limit_eq; [apply lim_plus; [apply lim_mult; [apply lim_scal, lim_exp|apply lim_plus; [apply lim_cos|apply lim_scal, lim_sin]]|apply lim_const]|cbv beta; ring].
    + rewrite <- EX. eapply limit_eq; [apply lim_mult; [apply lim_scal, lim_exp|apply lim_plus; apply lim_scal; [apply lim_cos|apply lim_sin]]|]. cbv beta.
      set (ex := exp (k * t)). set (co := cos (w * t)). set (si := sin (w * t)).
      assert (K0 : k + b * w = 0) by (rewrite Eb; unfold k; field). rewrite K0.
      transitivity ((x0 - c) * ex * ((k * b * w - w * w) * co + (k * k * b - k * w) * si)); [ring|].
      transitivity ((x0 - c) * ex * (- co + (- b - mu * (k * b - w)) * si)); [|ring].
      replace (k * b * w - w * w) with (-1). 2:{ replace (k * b * w) with (k * (b * w)) by ring. rewrite Eb, Ew. unfold k. field. }
      replace (k * k * b - k * w) with (- b - mu * (k * b - w)); [ring|].
      assert (Z : w * (k * k * b - k * w + b + mu * (k * b - w)) = 0).
      { replace (w * (k * k * b - k * w + b + mu * (k * b - w))) with ((k * k + 1 + mu * k) * (b * w) - (k + mu) * (w * w)) by ring. rewrite Eb, Ew. unfold k. field. }
      apply Rmult_integral in Z as [Z|Z]; lra.
  - rewrite !Rmult_0_r. unfold Rdiv at 1. rewrite Rmult_0_l, exp_0, cos_0, sin_0. split; [ring|].
    rewrite Eb. unfold k. field.
Qed.

(** The whole run against the solution: sequences that satisfy the step up to perturbations [p1 k], [p2 k]. *)
Lemma verlet_follows mu c (y z : R -> R) h x v M (p1 p2 : nat -> R) : 0 <= mu -> damped_oscillator mu c y z -> 0 < h <= 1 -> h * mu <= 4 -> 0 <= M ->
  (y 0 - c) ^ 2 + z 0 ^ 2 <= M ^ 2 -> forall n, (forall k, (k < n)%nat ->
    x (S k) = x k + v k * h + h ^ 2 / 2 * (c - x k - mu * v k) + p1 k /\
    (1 + mu * h / 2) * v (S k) = v k + h / 2 * (c - x k - mu * v k + (c - x (S k))) + p2 k) ->
  enorm h (x n - y (INR n * h)) (v n - z (INR n * h)) <=
    enorm h (x 0%nat - y 0) (v 0%nat - z 0) + INR n * ((1 + mu) ^ 3 / 2 * 5 / 6 * M * h ^ 3) + Rsum (map (fun k => (1 + h / 2) * Rabs (p1 k) + Rabs (p2 k)) (seq 0 n)).
Proof.
  intros Hm HS Hh Hhm HM HE n. induction n as [|n IH]; intros HX.
  - cbn [INR seq map]. rewrite Rmult_0_l, Rsum_nil. lra.
  - rewrite seq_S, map_app, Rsum_app. cbn [map Nat.add]. rewrite Rsum_cons, Rsum_nil.
    assert (IH' := IH ltac:(intros k Hk; apply HX; lia)). clear IH. set (t := INR n * h) in *.
    assert (Ht : 0 <= t) by (unfold t; apply Rmult_le_pos; [apply pos_INR|lra]).
    replace (INR (S n) * h) with (t + h) by (unfold t; rewrite S_INR; ring). rewrite S_INR.
    assert (HEt : (y t - c) ^ 2 + z t ^ 2 <= M ^ 2).
    { pose proof (solution_energy mu c y z Hm HS 0 t Ht) as P. cbv beta in P. lra. }
    pose proof (position_error mu c y z Hm HS t M HM HEt h ltac:(lra)) as P1. cbv beta in P1.
    pose proof (velocity_error mu c y z Hm HS t M HM HEt h ltac:(lra)) as P2. cbv beta in P2.
    destruct (HX n ltac:(lia)) as (X1 & X2).
    set (e1 := y (t + h) - c - (y t - c + z t * h + h ^ 2 / 2 * (- (y t - c) - mu * z t))) in *.
    set (e2 := (1 + mu * h / 2) * z (t + h) - (z t + h / 2 * (- (y t - c) - mu * z t - (y (t + h) - c)))) in *.
    pose proof (perturbed_step h mu (x n - y t) (v n - z t) (x (S n) - y (t + h)) (v (S n) - z (t + h)) (p1 n - e1) (p2 n - e2)
      ltac:(lra) Hm Hhm ltac:(unfold e1; lra) ltac:(rewrite Rmult_minus_distr_l, X2; unfold e2; lra)) as P.
    assert (T : forall a b, Rabs (a - b) <= Rabs a + Rabs b) by (intros; unfold Rminus; eapply Rle_trans; [apply Rabs_triang|rewrite Rabs_Ropp; lra]).
    pose proof (T (p1 n) e1) as T1. pose proof (T (p2 n) e2) as T2.
    assert (L : (1 + h / 2) * Rabs e1 + Rabs e2 <= (1 + mu) ^ 3 / 2 * 5 / 6 * M * h ^ 3).
    { assert (0 <= h ^ 3) by (apply pow_le; lra). set (Z := M * h ^ 3). assert (HZ : 0 <= Z) by (apply Rmult_le_pos; auto).
      replace ((1 + mu + mu ^ 2) * M / 6 * h ^ 3) with ((1 + mu + mu ^ 2) / 6 * Z) in P1 by (unfold Z; field).
      replace ((1 + 2 * mu + mu ^ 2 + mu ^ 3) * M / 12 * h ^ 3) with ((1 + 2 * mu + mu ^ 2 + mu ^ 3) / 12 * Z) in P2 by (unfold Z; field).
      replace ((1 + mu) ^ 3 / 2 * 5 / 6 * M * h ^ 3) with ((1 + mu) ^ 3 * 5 / 12 * Z) by (unfold Z; field).
      apply Rle_trans with (3 / 2 * ((1 + mu + mu ^ 2) / 6 * Z) + (1 + 2 * mu + mu ^ 2 + mu ^ 3) / 12 * Z).
      - apply Rplus_le_compat; auto. apply Rmult_le_compat; [lra|apply Rabs_pos|lra|exact P1].
      - replace (3 / 2 * ((1 + mu + mu ^ 2) / 6 * Z) + (1 + 2 * mu + mu ^ 2 + mu ^ 3) / 12 * Z) with ((3 / 2 * (1 + mu + mu ^ 2) / 6 + (1 + 2 * mu + mu ^ 2 + mu ^ 3) / 12) * Z) by field.
        apply Rmult_le_compat_r; auto. assert (0 <= mu ^ 2) by (apply pow_le; lra). assert (0 <= mu ^ 3) by (apply pow_le; lra). lra. }
    assert ((1 + h / 2) * Rabs (p1 n - e1) <= (1 + h / 2) * (Rabs (p1 n) + Rabs e1)) by (apply Rmult_le_compat_l; lra).
    lra.
Qed.
