(** Proofs: the scheme of the inertial model without bots has a local error of order h^3 (for C103). *)
From Verif Require Import Base RFacts PTanh PTaylor PRk4 PInertia.
From Coq Require Import Reals Lra Psatz.
Local Open Scope R_scope.

Section Taylor.
Variable T : R.
Notation big := (big T). Notation smooth := (smooth T).
(** Taylor expansion to second order, and the trapezoidal rule. *)
Lemma second_order_facts (f f1 : R -> R) : (forall t, 0 <= t <= T -> derivable_pt_lim f t (f1 t)) -> smooth 2 f1 ->
  big 2 (fun t h => f t + h * f1 t - f (t + 1 * h)) /\
  big 3 (fun t h => f t + h / 2 * (f1 t + f1 (t + 1 * h)) - f (t + 1 * h)) /\
  (forall f2 : R -> R, (forall t, 0 <= t <= T -> derivable_pt_lim f1 t (f2 t)) -> smooth 1 f2 -> big 3 (fun t h => f t + h * f1 t + h ^ 2 / 2 * f2 t - f (t + 1 * h))).
Proof.
  intros D0 (B1 & f2 & D1 & B2 & f3 & D2 & B3 & _).
  pose proof (taylor3 T f f1 f2 f3) as T3. 
  assert (X : forall f2 f3 : R -> R, (forall t, 0 <= t <= T -> derivable_pt_lim f1 t (f2 t)) -> bounded_on T f2 -> (forall t, 0 <= t <= T -> derivable_pt_lim f2 t (f3 t)) -> bounded_on T f3 ->
     big 3 (fun t h => f (t + 1 * h) - f t - f1 t * (1 * h) ^ 1 - f2 t / 2 * (1 * h) ^ 2) /\ big 2 (fun t h => f1 (t + 1 * h) - f1 t - f2 t * (1 * h) ^ 1)).
  { clear T3 f2 f3 D1 B2 D2 B3. intros f2 f3 D1 B2 D2 B3.
    split; [apply (small_big T 1 3 (fun t s => f (t + s) - f t - f1 t * s ^ 1 - f2 t / 2 * s ^ 2)); [lra|]|apply (small_big T 1 2 (fun t s => f1 (t + s) - f1 t - f2 t * s ^ 1)); [lra|]].
    - apply (taylor3 T f f1 f2 f3); auto.
    - apply (taylor2 T f1 f2 f3); auto. }
  clear T3. destruct (X f2 f3 D1 B2 D2 B3) as (R1 & Q1).
  assert (H2 : big 2 (fun t h => h ^ 2 * (1 / 2 * f2 t))) by (apply (big_h T 2 0), big_scal, bounded_big, B2).
  split; [|split].
  - eapply (big_ext _ _ (fun t h => -1 * (f (t + 1 * h) - f t - f1 t * (1 * h) ^ 1 - f2 t / 2 * (1 * h) ^ 2) - h ^ 2 * (1 / 2 * f2 t))); [intros; field|].
    apply big_minus; [apply big_scal; eapply big_weaken; [|exact R1]; lia|exact H2].
  - eapply (big_ext _ _ (fun t h => 1 / 2 * (h ^ 1 * (f1 (t + 1 * h) - f1 t - f2 t * (1 * h) ^ 1)) - (f (t + 1 * h) - f t - f1 t * (1 * h) ^ 1 - f2 t / 2 * (1 * h) ^ 2))); [intros; field|].
    apply big_minus; [apply big_scal, (big_h T 1 2), Q1|exact R1].
  - intros g2 E1 (C2 & g3 & E2 & C3 & _). destruct (X g2 g3 E1 C2 E2 C3) as (R & _).
    eapply (big_ext _ _ (fun t h => -1 * (f (t + 1 * h) - f t - f1 t * (1 * h) ^ 1 - g2 t / 2 * (1 * h) ^ 2))); [intros; field|]. now apply big_scal.
Qed.
End Taylor.

Section System.
Variables (T : R) (n : nat) (kap : nat -> R) (al mu : R) (W : nat -> list (nat * R)) (y z : nat -> R -> R).
Hypothesis HW : forall i p, (i < n)%nat -> In p (W i) -> (fst p < n)%nat.
Notation rhs := (rhs kap al W).
Hypothesis Hode : forall i t, (i < n)%nat -> 0 <= t <= T -> derivable_pt_lim (y i) t (z i t) /\ derivable_pt_lim (z i) t (rhs i (fun j => y j t) - mu * z i t).
Hypothesis Hbound : forall i, (i < n)%nat -> bounded_on T (y i) /\ bounded_on T (z i).
Notation big := (big T). Notation smooth := (smooth T).
Let th j t := tanh (al * y j t).
Definition force_at i t := rhs i (fun j => y j t) - mu * z i t.

Lemma inertial_smooth m : forall j, (j < n)%nat -> smooth m (y j) /\ smooth m (th j) /\ smooth m (z j).
Proof using HW Hode Hbound.
  induction m as [|m IH]; intros j Hj.
  - split; [|split]; (split; [|exact I]); [now apply Hbound|apply (th_bounded T al y)|now apply Hbound].
  - assert (S : forall i, (i < n)%nat -> smooth m (speed kap al W y i)) by (apply (speed_smooth T n kap al W y HW); intros u Hu; destruct (IH u Hu) as (A & B & _); split; assumption).
    destruct (IH j Hj) as (Sy & Sth & Sz). split; [|split]; cbn [PTaylor.smooth].
    + split; [now apply Hbound|]. exists (z j). split; [intros t Ht; now apply Hode|exact Sz].
    + split; [apply (th_bounded T al y)|]. exists (fun t => (1 + -1 * (th j t * th j t)) * (al * z j t)). split.
      * intros t Ht. replace (1 + -1 * (th j t * th j t)) with (1 - th j t * th j t) by ring. unfold th. apply (derivable_pt_lim_comp (fun t => al * y j t) tanh); [|apply tanh_derivative].
        apply (derivable_pt_lim_scal (y j)). now apply Hode.
      * apply smooth_mult; [|apply (smooth_mult T m (fun _ => al)); [apply smooth_const|exact Sz]].
        apply (smooth_plus T m (fun _ => 1)); [apply smooth_const|]. apply (smooth_mult T m (fun _ => -1)); [apply smooth_const|]. now apply smooth_mult.
    + split; [now apply Hbound|]. exists (fun t => speed kap al W y j t + - mu * z j t). split.
      * intros t Ht. replace (speed kap al W y j t + - mu * z j t) with (rhs j (fun j => y j t) - mu * z j t) by (unfold speed; ring). now apply Hode.
      * apply smooth_plus; [now apply S|]. apply (smooth_mult T m (fun _ => - mu)); [apply smooth_const|exact Sz].
Qed.
Lemma force_smooth m i : (i < n)%nat -> smooth m (force_at i).
Proof using HW Hode Hbound.
  intros Hi. change (smooth m (fun t => speed kap al W y i t - mu * z i t)).
  assert (E : (fun t => speed kap al W y i t - mu * z i t) = (fun t => speed kap al W y i t + - mu * z i t)) by (apply FunctionalExtensionality.functional_extensionality; intros; ring).
  rewrite E. apply smooth_plus; [apply (speed_smooth T n kap al W y HW)|]; auto.
  - intros u Hu. destruct (inertial_smooth m u Hu) as (A & B & _). split; assumption.
  - apply (smooth_mult T m (fun _ => - mu)); [apply smooth_const|apply inertial_smooth; auto].
Qed.
Lemma position_local i : (i < n)%nat -> big 3 (fun t h => y i t + h * z i t + h ^ 2 / 2 * force_at i t - y i (t + 1 * h)).
Proof using HW Hode Hbound.
  intros Hi. destruct (second_order_facts T (y i) (z i)) as (_ & _ & H); [intros t Ht; now apply Hode|apply (inertial_smooth 2 i Hi)|].
  apply (H (force_at i)); [intros t Ht; now apply Hode|now apply force_smooth].
Qed.
Lemma velocity_local i : (i < n)%nat -> big 3 (fun t h => z i t + h / 2 * (force_at i t + force_at i (t + 1 * h)) - z i (t + 1 * h)).
Proof using HW Hode Hbound.
  intros Hi. destruct (second_order_facts T (z i) (force_at i)) as (_ & H & _); [intros t Ht; now apply Hode|now apply force_smooth|exact H].
Qed.

(** One step of the scheme from a state within [e] of the solution. [pull] is the part of the right-hand side without the restoring force. *)
Definition pull i (u : nat -> R) := kap i * Rsum (map (fun p => snd p * tanh (al * u (fst p))) (W i)).
Hypothesis Hmu : 0 <= mu.
Lemma verlet_near : exists Lam C, 1 <= Lam /\ 0 <= C /\ forall t h (x v moved v' : nat -> R) e, 0 <= t -> 0 < h -> t + h <= T -> 0 <= e ->
  (forall i, (i < n)%nat -> Rabs (x i - y i t) <= e /\ Rabs (v i - z i t) <= e) ->
  (forall i, (i < n)%nat -> verlet h mu (pull i x) (pull i moved) (x i) (v i) (moved i) (v' i)) ->
  forall i, (i < n)%nat -> Rabs (moved i - y i (t + h)) <= (1 + Lam * h) * e + C * h ^ 3 /\ Rabs (v' i - z i (t + h)) <= (1 + Lam * h) * e + C * h ^ 3.
Proof using HW Hode Hbound Hmu.
  destruct (rhs_lipschitz n kap al W HW) as (L & L1 & HL).
  destruct (big_uniform T n 3 _ position_local) as (C1 & HC1 & HE1). destruct (big_uniform T n 3 _ velocity_local) as (C2 & HC2 & HE2).
  set (B := Rabs T). assert (B0 : 0 <= B) by apply Rabs_pos. set (F := L + mu). assert (F1 : 1 <= F) by (unfold F; lra).
  set (Lam1 := 1 + B * F). assert (Q1 : 1 <= Lam1) by (unfold Lam1; nra).
  (* velocity: 1/2 F + 1/2 L (1 + Lam1 B) *)
  set (Lam2 := F + L * (1 + Lam1 * B)). assert (Q2 : 1 <= Lam2) by (unfold Lam2; assert (0 <= L * (1 + Lam1 * B)) by (apply Rmult_le_pos; [lra|]; nra); lra).
  exists (Lam1 + Lam2), (C1 + C2 + B * L * C1). split; [lra|]. assert (BL : 0 <= B * L * C1) by (apply Rmult_le_pos; [apply Rmult_le_pos; lra|auto]). split; [lra|].
  intros t h x v moved v' e H1 H2 H3 He Hx HS.
  assert (hB : h <= B) by (unfold B; pose proof (Rle_abs T); lra). assert (h3 : 0 <= h ^ 3) by (apply pow_le; lra).
  assert (Fo : forall u w w0 d d' tau i, (i < n)%nat -> (forall j, (j < n)%nat -> Rabs (u j - y j tau) <= d) -> w0 = z i tau -> Rabs (w - w0) <= d' -> Rabs ((rhs i u - mu * w) - force_at i tau) <= L * d + mu * d').
  { intros u w w0 d d' tau i Hi Hu -> Hw. unfold force_at. replace (rhs i u - mu * w - (rhs i (fun j => y j tau) - mu * z i tau)) with ((rhs i u - rhs i (fun j => y j tau)) + - (mu * (w - z i tau))) by ring.
    eapply Rle_trans; [apply Rabs_triang|]. rewrite Rabs_Ropp, Rabs_mult, (Rabs_right mu) by lra. apply Rplus_le_compat; [now apply HL|now apply Rmult_le_compat_l]. }
  assert (PR : forall i u, pull i u - u i = rhs i u) by (intros; unfold pull, PRk4.rhs; ring).
  assert (P : forall i, (i < n)%nat -> Rabs (moved i - y i (t + h)) <= (1 + Lam1 * h) * e + C1 * h ^ 3).
  { intros i Hi. destruct (HS i Hi) as (E & _). rewrite PR in E. destruct (Hx i Hi) as (X1 & X2). specialize (HE1 i t h Hi H1 H2 H3). rewrite Rmult_1_l in HE1.
    pose proof (Fo x (v i) (z i t) e e t i Hi (fun j Hj => proj1 (Hx j Hj)) eq_refl X2) as G. replace (L * e + mu * e) with (F * e) in G by (unfold F; ring).
    replace (moved i - y i (t + h)) with ((x i - y i t) + h * (v i - z i t) + h ^ 2 / 2 * ((rhs i x - mu * v i) - force_at i t) + (y i t + h * z i t + h ^ 2 / 2 * force_at i t - y i (t + h))) by (rewrite E; ring).
    eapply Rle_trans; [apply Rabs_triang|]. apply Rplus_le_compat; [|exact HE1]. eapply Rle_trans; [apply Rabs_triang|]. eapply Rle_trans; [apply Rplus_le_compat_r, Rabs_triang|].
    rewrite !Rabs_mult, (Rabs_right h), (Rabs_right (h ^ 2 / 2)) by (try nra; lra).
    assert (h * Rabs (v i - z i t) <= h * e) by (apply Rmult_le_compat_l; lra).
    assert (h ^ 2 / 2 * Rabs (rhs i x - mu * v i - force_at i t) <= h * (B * F * e)).
    { replace (h ^ 2 / 2) with (h * (h / 2)) by field. rewrite Rmult_assoc. apply Rmult_le_compat_l; [lra|]. rewrite Rmult_assoc. apply Rmult_le_compat; try lra. apply Rabs_pos. }
    unfold Lam1. nra. }
  intros i Hi. split.
  { eapply Rle_trans; [now apply P|]. assert (Lam1 * h * e <= (Lam1 + Lam2) * h * e) by (apply Rmult_le_compat_r; auto; apply Rmult_le_compat_r; lra). nra. }
  destruct (HS i Hi) as (_ & E). rewrite PR in E. destruct (Hx i Hi) as (X1 & X2). specialize (HE2 i t h Hi H1 H2 H3). rewrite Rmult_1_l in HE2.
  pose proof (Fo x (v i) (z i t) e e t i Hi (fun j Hj => proj1 (Hx j Hj)) eq_refl X2) as G. replace (L * e + mu * e) with (F * e) in G by (unfold F; ring).
  set (d := (1 + Lam1 * h) * e + C1 * h ^ 3) in *.
  pose proof (HL i moved (fun j => y j (t + h)) d Hi P) as G2.
  assert (PM : pull i moved - moved i = rhs i moved) by apply PR. rewrite PM in E.
  set (w := v' i - z i (t + h)) in *.
  assert (EW : (1 + mu * h / 2) * w = (v i - z i t) + h / 2 * ((rhs i x - mu * v i) - force_at i t) + h / 2 * (rhs i moved - rhs i (fun j => y j (t + h))) +
     (z i t + h / 2 * (force_at i t + force_at i (t + h)) - z i (t + h))).
  { unfold w. rewrite Rmult_minus_distr_l, E. unfold force_at at 3. field. }
  assert (Bd : Rabs ((1 + mu * h / 2) * w) <= e + h / 2 * (F * e) + h / 2 * (L * d) + C2 * h ^ 3).
  { rewrite EW. eapply Rle_trans; [apply Rabs_triang|]. apply Rplus_le_compat; [|exact HE2]. eapply Rle_trans; [apply Rabs_triang|]. eapply Rle_trans; [apply Rplus_le_compat_r, Rabs_triang|].
    rewrite !Rabs_mult, (Rabs_right (h / 2)) by lra. apply Rplus_le_compat; [apply Rplus_le_compat; auto|]; apply Rmult_le_compat_l; auto; lra. }
  assert (Rabs w <= Rabs ((1 + mu * h / 2) * w)).
  { rewrite Rabs_mult. pose proof (Rabs_pos w). assert (0 <= mu * h / 2) by nra. rewrite (Rabs_right (1 + mu * h / 2)) by lra. nra. }
  assert (D1 : h / 2 * (L * d) <= h * (L * (1 + Lam1 * B) * e) + B * L * C1 * h ^ 3).
  { unfold d. assert (h / 2 * (L * ((1 + Lam1 * h) * e)) <= h * (L * (1 + Lam1 * B) * e)).
    { apply Rmult_le_compat; try lra; [apply Rmult_le_pos; [lra|]; apply Rmult_le_pos; nra|]. rewrite <- Rmult_assoc. apply Rmult_le_compat_r; auto. apply Rmult_le_compat_l; [lra|]. nra. }
    assert (h / 2 * (L * (C1 * h ^ 3)) <= B * L * C1 * h ^ 3).
    { replace (B * L * C1 * h ^ 3) with (B * (L * (C1 * h ^ 3))) by ring. apply Rmult_le_compat_r; [|lra]. apply Rmult_le_pos; [lra|]. now apply Rmult_le_pos. }
    lra. }
  assert (0 <= Lam1 * h * e) by (apply Rmult_le_pos; auto; apply Rmult_le_pos; lra). assert (0 <= C1 * h ^ 3) by now apply Rmult_le_pos.
  assert (0 <= h * (F * e)) by (apply Rmult_le_pos; [lra|]; nra).
  assert (EL : Lam2 * h * e = h * (F * e) + h * (L * (1 + Lam1 * B) * e)) by (unfold Lam2; ring). lra.
Qed.
End System.
