(** Proofs: orders of magnitude of functions of (time, step), smooth functions and their Taylor polynomials (for C102, C103). *)
From Verif Require Import Base RFacts.
From Coq Require Import Reals Lra Psatz.
Local Open Scope R_scope.

(** ** Functions of (t, h) of order h^p, uniformly for 0 <= t, 0 < h, t + h <= T *)
Section Order.
Variable T : R.
Definition big (p : nat) (f : R -> R -> R) : Prop :=
  exists C, 0 <= C /\ forall t h, 0 <= t -> 0 < h -> t + h <= T -> Rabs (f t h) <= C * h ^ p.
Lemma big_ext p f f' : (forall t h, 0 <= t -> 0 < h -> t + h <= T -> f t h = f' t h) -> big p f -> big p f'.
Proof. intros E (C & HC & H). exists C. split; auto. intros t h H1 H2 H3. rewrite <- E by auto. auto. Qed.
Lemma big_plus p f f' : big p f -> big p f' -> big p (fun t h => f t h + f' t h).
Proof.
  intros (C & HC & H) (C' & HC' & H'). exists (C + C'). split; [lra|]. intros t h H1 H2 H3.
  eapply Rle_trans; [apply Rabs_triang|]. specialize (H t h H1 H2 H3). specialize (H' t h H1 H2 H3). lra.
Qed.
Lemma big_zero p : big p (fun _ _ => 0).
Proof. exists 0. split; [lra|]. intros. rewrite Rabs_R0. lra. Qed.
Lemma big_scal p c f : big p f -> big p (fun t h => c * f t h).
Proof.
  intros (C & HC & H). exists (Rabs c * C). split; [apply Rmult_le_pos; auto; apply Rabs_pos|]. intros t h H1 H2 H3.
  rewrite Rabs_mult, Rmult_assoc. apply Rmult_le_compat_l; [apply Rabs_pos|auto].
Qed.
Lemma big_minus p f f' : big p f -> big p f' -> big p (fun t h => f t h - f' t h).
Proof. intros H H'. eapply big_ext; [|apply (big_plus p f (fun t h => -1 * f' t h)); [exact H|now apply big_scal]]. intros; cbv beta; ring. Qed.
Lemma big_mult p q f f' : big p f -> big q f' -> big (p + q) (fun t h => f t h * f' t h).
Proof.
  intros (C & HC & H) (C' & HC' & H'). exists (C * C'). split; [now apply Rmult_le_pos|]. intros t h H1 H2 H3. rewrite Rabs_mult, pow_add.
  replace (C * C' * (h ^ p * h ^ q)) with (C * h ^ p * (C' * h ^ q)) by ring. apply Rmult_le_compat; try apply Rabs_pos; auto.
Qed.
Lemma big_h k p f : big p f -> big (k + p) (fun t h => h ^ k * f t h).
Proof. intros H. apply big_mult; auto. exists 1. split; [lra|]. intros t h H1 H2 H3. rewrite Rabs_right; [lra|]. apply Rle_ge, pow_le. lra. Qed.
Lemma big_weaken p q f : (p <= q)%nat -> big q f -> big p f.
Proof.
  intros Hpq (C & HC & H). exists (C * Rabs T ^ (q - p)). split; [apply Rmult_le_pos; auto; apply pow_le, Rabs_pos|]. intros t h H1 H2 H3.
  eapply Rle_trans; [now apply H|]. rewrite Rmult_assoc. apply Rmult_le_compat_l; auto.
  replace q with (q - p + p)%nat at 1 by lia. rewrite pow_add. apply Rmult_le_compat_r; [apply pow_le; lra|]. apply pow_incr. pose proof (Rle_abs T). lra.
Qed.
Lemma big_sum {A} (l : list A) p (f : A -> R -> R -> R) : (forall x, In x l -> big p (f x)) -> big p (fun t h => Rsum (map (fun x => f x t h) l)).
Proof.
  induction l as [|x l IH]; intros H; cbn [map].
  - apply (big_ext p (fun _ _ => 0)); [intros; now rewrite Rsum_nil|apply big_zero].
  - apply (big_ext p (fun t h => f x t h + Rsum (map (fun x => f x t h) l))); [intros; now rewrite Rsum_cons|]. apply big_plus; [apply H; now left|apply IH; intros; apply H; now right].
Qed.
(** One constant for finitely many functions. *)
Lemma big_uniform n p (f : nat -> R -> R -> R) : (forall i, (i < n)%nat -> big p (f i)) ->
  exists C, 0 <= C /\ forall i t h, (i < n)%nat -> 0 <= t -> 0 < h -> t + h <= T -> Rabs (f i t h) <= C * h ^ p.
Proof.
  induction n as [|n IH]; intros H; [exists 0; split; [lra|lia]|]. destruct IH as (C & HC & HH); [intros; apply H; lia|]. destruct (H n ltac:(lia)) as (C' & HC' & H').
  exists (C + C'). split; [lra|]. intros i t h Hi H1 H2 H3. assert (0 <= h ^ p) by (apply pow_le; lra).
  destruct (Nat.eq_dec i n) as [->|]; [specialize (H' t h H1 H2 H3); nra|]. specialize (HH i t h ltac:(lia) H1 H2 H3). nra.
Qed.

(** ** Functions with m bounded derivatives on [0, T] *)
Definition bounded_on (f : R -> R) : Prop := exists B, 0 <= B /\ forall t, 0 <= t <= T -> Rabs (f t) <= B.
Fixpoint smooth (m : nat) (f : R -> R) : Prop :=
  bounded_on f /\ match m with O => True | S m' => exists f', (forall t, 0 <= t <= T -> derivable_pt_lim f t (f' t)) /\ smooth m' f' end.
Lemma smooth_bounded m f : smooth m f -> bounded_on f.
Proof. destruct m; intros H; apply H. Qed.
Lemma bounded_big f : bounded_on f -> big 0 (fun t _ => f t).
Proof. intros (B & HB & H). exists B. split; auto. intros t h H1 H2 H3. cbn [pow]. rewrite Rmult_1_r. apply H. lra. Qed.
Lemma bounded_plus f f' : bounded_on f -> bounded_on f' -> bounded_on (fun t => f t + f' t).
Proof. intros (B & HB & H) (B' & HB' & H'). exists (B + B'). split; [lra|]. intros t Ht. eapply Rle_trans; [apply Rabs_triang|]. specialize (H t Ht). specialize (H' t Ht). lra. Qed.
Lemma bounded_mult f f' : bounded_on f -> bounded_on f' -> bounded_on (fun t => f t * f' t).
Proof. intros (B & HB & H) (B' & HB' & H'). exists (B * B'). split; [now apply Rmult_le_pos|]. intros t Ht. rewrite Rabs_mult. apply Rmult_le_compat; auto using Rabs_pos. Qed.
Lemma smooth_const m c : smooth m (fun _ => c).
Proof.
  revert c. induction m as [|m IH]; intros c; cbn [smooth]; (split; [exists (Rabs c); split; [apply Rabs_pos|intros; lra]|]); auto.
  exists (fun _ => 0). split; auto. intros. apply derivable_pt_lim_const.
Qed.
Lemma smooth_opp m f : smooth m f -> smooth m (fun t => - f t).
Proof.
  revert f. induction m as [|m IH]; intros f ((B & HB & Hb) & H); cbn [smooth]; (split; [exists B; split; auto; intros; rewrite Rabs_Ropp; auto|]); auto.
  destruct H as (g & D & S). exists (fun t => - g t). split; [|now apply IH]. intros t Ht. apply (derivable_pt_lim_opp f); auto.
Qed.
Lemma smooth_less m f : smooth (S m) f -> smooth m f.
Proof. revert f. induction m as [|m IH]; intros f (B & f' & D & S); cbn [smooth]; split; auto. exists f'. split; auto. Qed.
Lemma smooth_plus m f f' : smooth m f -> smooth m f' -> smooth m (fun t => f t + f' t).
Proof.
  revert f f'. induction m as [|m IH]; intros f f' (B & H) (B' & H'); cbn [smooth]; (split; [now apply bounded_plus|]); auto.
  destruct H as (g & D & S), H' as (g' & D' & S'). exists (fun t => g t + g' t). split; [|now apply IH]. intros t Ht. apply (derivable_pt_lim_plus f f'); auto.
Qed.
Lemma smooth_mult m f f' : smooth m f -> smooth m f' -> smooth m (fun t => f t * f' t).
Proof.
  revert f f'. induction m as [|m IH]; intros f f' Hf Hf'; (split; [apply bounded_mult; eapply smooth_bounded; eauto|]); auto.
  pose proof (smooth_less m f Hf) as L. pose proof (smooth_less m f' Hf') as L'. destruct Hf as (B & g & D & S), Hf' as (B' & g' & D' & S').
  exists (fun t => g t * f' t + f t * g' t). split; [intros t Ht; apply (derivable_pt_lim_mult f f'); auto|]. apply smooth_plus; now apply IH.
Qed.
Lemma smooth_sum {A} m (l : list A) (f : A -> R -> R) : (forall x, In x l -> smooth m (f x)) -> smooth m (fun t => Rsum (map (fun x => f x t) l)).
Proof.
  induction l as [|x l IH]; intros H; cbn [map]; [change (fun _ : R => Rsum []) with (fun _ : R => 0); apply smooth_const|].
  change (smooth m (fun t => f x t + Rsum (map (fun x => f x t) l))). apply smooth_plus; [apply H; now left|apply IH; intros; apply H; now right].
Qed.

(** ** Taylor polynomials *)
Definition small (p : nat) (f : R -> R -> R) : Prop :=
  exists C, 0 <= C /\ forall t s, 0 <= t -> 0 <= s -> t + s <= T -> Rabs (f t s) <= C * s ^ p.
Lemma small_integral p f f' : (forall t s, 0 <= t -> 0 <= s -> t + s <= T -> derivable_pt_lim (f t) s (f' t s)) -> (forall t, f t 0 = 0) -> small p f' -> small (S p) f.
Proof.
  intros D Z (C & HC & H). exists C. split; auto. intros t s H1 H2 H3. destruct (Req_dec s 0) as [->|Hs].
  - rewrite Z, Rabs_R0. apply Rmult_le_pos; auto. apply pow_le. lra.
  - destruct (MVT_cor2 (f t) (f' t) 0 s ltac:(lra)) as (xi & E & Hx); [intros c Hc; apply D; lra|]. rewrite Z, !Rminus_0_r in E. rewrite E, Rabs_mult, (Rabs_right s) by lra.
    specialize (H t xi H1 ltac:(lra) ltac:(lra)). cbn [pow]. replace (C * (s * s ^ p)) with (C * s ^ p * s) by ring. apply Rmult_le_compat_r; [lra|].
    eapply Rle_trans; [exact H|]. apply Rmult_le_compat_l; auto. apply pow_incr. lra.
Qed.
Lemma small_big c p f : 0 < c <= 1 -> small p f -> big p (fun t h => f t (c * h)).
Proof.
  intros Hc (C & HC & H). exists C. split; auto. intros t h H1 H2 H3. assert (c * h <= h) by nra. eapply Rle_trans; [apply H; try lra; nra|].
  apply Rmult_le_compat_l; auto. apply pow_incr. split; nra.
Qed.
Lemma small_start f : bounded_on f -> small 0 (fun t s => f (t + s)).
Proof. intros (B & HB & H). exists B. split; auto. intros. cbn [pow]. rewrite Rmult_1_r. apply H. lra. Qed.
Lemma shift_derivative f f' t s : derivable_pt_lim f (t + s) (f' (t + s)) -> derivable_pt_lim (fun s => f (t + s)) s (f' (t + s)).
Proof.
  intros H. replace (f' (t + s)) with (f' (t + s) * (0 + 1)) by ring. apply (derivable_pt_lim_comp (fun s => t + s) f); auto.
  apply (derivable_pt_lim_plus (fun _ => t) id); [apply derivable_pt_lim_const|apply derivable_pt_lim_id].
Qed.
Lemma power_derivative k c s : derivable_pt_lim (fun s => c * s ^ S k) s (c * (INR (S k) * s ^ k)).
Proof. apply (derivable_pt_lim_scal (fun s => s ^ S k)). apply (derivable_pt_lim_pow s (S k)). Qed.

Section Taylor.
Variables f0 f1 f2 f3 f4 f5 : R -> R.
Hypothesis D0 : forall t, 0 <= t <= T -> derivable_pt_lim f0 t (f1 t).
Hypothesis D1 : forall t, 0 <= t <= T -> derivable_pt_lim f1 t (f2 t).
Hypothesis D2 : forall t, 0 <= t <= T -> derivable_pt_lim f2 t (f3 t).
Hypothesis D3 : forall t, 0 <= t <= T -> derivable_pt_lim f3 t (f4 t).
Hypothesis D4 : forall t, 0 <= t <= T -> derivable_pt_lim f4 t (f5 t).
Hypothesis B5 : bounded_on f5.
Lemma taylor1 : small 1 (fun t s => f4 (t + s) - f4 t).
Proof using D4 B5.
  apply (small_integral 0 _ (fun t s => f5 (t + s))); [| |now apply small_start].
  - intros t s H1 H2 H3. replace (f5 (t + s)) with (f5 (t + s) - 0) by ring. apply (derivable_pt_lim_minus (fun s => f4 (t + s)) (fun _ => f4 t)); [|apply derivable_pt_lim_const].
    apply shift_derivative, D4. lra.
  - intros t. rewrite Rplus_0_r. ring.
Qed.
Lemma taylor2 : small 2 (fun t s => f3 (t + s) - f3 t - f4 t * s ^ 1).
Proof using D3 D4 B5.
  apply (small_integral 1 _ (fun t s => f4 (t + s) - 0 - f4 t * (INR 1 * s ^ 0))); [| |destruct taylor1 as (C & HC & H); exists C; split; auto; intros t s H1 H2 H3].
  - intros t s H1 H2 H3. apply (derivable_pt_lim_minus (fun s => f3 (t + s) - f3 t) (fun s => f4 t * s ^ 1)); [|apply power_derivative].
    apply (derivable_pt_lim_minus (fun s => f3 (t + s)) (fun _ => f3 t)); [|apply derivable_pt_lim_const]. apply shift_derivative, D3. lra.
  - intros t. rewrite Rplus_0_r. ring.
  - specialize (H t s H1 H2 H3). replace (f4 (t + s) - 0 - f4 t * (INR 1 * s ^ 0)) with (f4 (t + s) - f4 t) by (cbn; ring). exact H.
Qed.
Lemma taylor3 : small 3 (fun t s => f2 (t + s) - f2 t - f3 t * s ^ 1 - f4 t / 2 * s ^ 2).
Proof using D2 D3 D4 B5.
  apply (small_integral 2 _ (fun t s => f3 (t + s) - 0 - f3 t * (INR 1 * s ^ 0) - f4 t / 2 * (INR 2 * s ^ 1))); [| |destruct taylor2 as (C & HC & H); exists C; split; auto; intros t s H1 H2 H3].
  - intros t s H1 H2 H3. apply (derivable_pt_lim_minus (fun s => f2 (t + s) - f2 t - f3 t * s ^ 1) (fun s => f4 t / 2 * s ^ 2)); [|apply power_derivative].
    apply (derivable_pt_lim_minus (fun s => f2 (t + s) - f2 t) (fun s => f3 t * s ^ 1)); [|apply power_derivative].
    apply (derivable_pt_lim_minus (fun s => f2 (t + s)) (fun _ => f2 t)); [|apply derivable_pt_lim_const]. apply shift_derivative, D2. lra.
  - intros t. rewrite Rplus_0_r. ring.
  - specialize (H t s H1 H2 H3). replace (f3 (t + s) - 0 - f3 t * (INR 1 * s ^ 0) - f4 t / 2 * (INR 2 * s ^ 1)) with (f3 (t + s) - f3 t - f4 t * s ^ 1) by (cbn; field). exact H.
Qed.
Lemma taylor4 : small 4 (fun t s => f1 (t + s) - f1 t - f2 t * s ^ 1 - f3 t / 2 * s ^ 2 - f4 t / 6 * s ^ 3).
Proof using D1 D2 D3 D4 B5.
  apply (small_integral 3 _ (fun t s => f2 (t + s) - 0 - f2 t * (INR 1 * s ^ 0) - f3 t / 2 * (INR 2 * s ^ 1) - f4 t / 6 * (INR 3 * s ^ 2))); [| |destruct taylor3 as (C & HC & H); exists C; split; auto; intros t s H1 H2 H3].
  - intros t s H1 H2 H3. apply (derivable_pt_lim_minus (fun s => f1 (t + s) - f1 t - f2 t * s ^ 1 - f3 t / 2 * s ^ 2) (fun s => f4 t / 6 * s ^ 3)); [|apply power_derivative].
    apply (derivable_pt_lim_minus (fun s => f1 (t + s) - f1 t - f2 t * s ^ 1) (fun s => f3 t / 2 * s ^ 2)); [|apply power_derivative].
    apply (derivable_pt_lim_minus (fun s => f1 (t + s) - f1 t) (fun s => f2 t * s ^ 1)); [|apply power_derivative].
    apply (derivable_pt_lim_minus (fun s => f1 (t + s)) (fun _ => f1 t)); [|apply derivable_pt_lim_const]. apply shift_derivative, D1. lra.
  - intros t. rewrite Rplus_0_r. ring.
  - specialize (H t s H1 H2 H3). replace (f2 (t + s) - 0 - f2 t * (INR 1 * s ^ 0) - f3 t / 2 * (INR 2 * s ^ 1) - f4 t / 6 * (INR 3 * s ^ 2))
      with (f2 (t + s) - f2 t - f3 t * s ^ 1 - f4 t / 2 * s ^ 2) by (cbn; field). exact H.
Qed.
Lemma taylor5 : small 5 (fun t s => f0 (t + s) - f0 t - f1 t * s ^ 1 - f2 t / 2 * s ^ 2 - f3 t / 6 * s ^ 3 - f4 t / 24 * s ^ 4).
Proof using D0 D1 D2 D3 D4 B5.
  apply (small_integral 4 _ (fun t s => f1 (t + s) - 0 - f1 t * (INR 1 * s ^ 0) - f2 t / 2 * (INR 2 * s ^ 1) - f3 t / 6 * (INR 3 * s ^ 2) - f4 t / 24 * (INR 4 * s ^ 3))); [| |destruct taylor4 as (C & HC & H); exists C; split; auto; intros t s H1 H2 H3].
  - intros t s H1 H2 H3. apply (derivable_pt_lim_minus (fun s => f0 (t + s) - f0 t - f1 t * s ^ 1 - f2 t / 2 * s ^ 2 - f3 t / 6 * s ^ 3) (fun s => f4 t / 24 * s ^ 4)); [|apply power_derivative].
    apply (derivable_pt_lim_minus (fun s => f0 (t + s) - f0 t - f1 t * s ^ 1 - f2 t / 2 * s ^ 2) (fun s => f3 t / 6 * s ^ 3)); [|apply power_derivative].
    apply (derivable_pt_lim_minus (fun s => f0 (t + s) - f0 t - f1 t * s ^ 1) (fun s => f2 t / 2 * s ^ 2)); [|apply power_derivative].
    apply (derivable_pt_lim_minus (fun s => f0 (t + s) - f0 t) (fun s => f1 t * s ^ 1)); [|apply power_derivative].
    apply (derivable_pt_lim_minus (fun s => f0 (t + s)) (fun _ => f0 t)); [|apply derivable_pt_lim_const]. apply shift_derivative, D0. lra.
  - intros t. rewrite Rplus_0_r. ring.
  - specialize (H t s H1 H2 H3). replace (f1 (t + s) - 0 - f1 t * (INR 1 * s ^ 0) - f2 t / 2 * (INR 2 * s ^ 1) - f3 t / 6 * (INR 3 * s ^ 2) - f4 t / 24 * (INR 4 * s ^ 3))
      with (f1 (t + s) - f1 t - f2 t * s ^ 1 - f3 t / 2 * s ^ 2 - f4 t / 6 * s ^ 3) by (cbn; field). exact H.
Qed.
End Taylor.

(** What the analysis of the Runge-Kutta scheme needs to know about one component [f] of the solution with derivative [f1]. *)
Lemma taylor_facts (f f1 : R -> R) : (forall t, 0 <= t <= T -> derivable_pt_lim f t (f1 t)) -> smooth 4 f1 ->
  let e2 t h := f t + h / 2 * f1 t - f (t + 1 / 2 * h) in
  let a t h := f t + h / 2 * f1 (t + 1 / 2 * h) - f (t + 1 / 2 * h) in
  let b t h := f t + h * f1 (t + 1 / 2 * h) - f (t + 1 * h) in
  big 2 e2 /\ big 3 (fun t h => e2 t h + a t h) /\ big 4 (fun t h => 2 * e2 t h + 2 * a t h + b t h) /\ big 3 b /\
  big 5 (fun t h => f t + h / 6 * (f1 t + 4 * f1 (t + 1 / 2 * h) + f1 (t + 1 * h)) - f (t + 1 * h)).
Proof.
  intros D0 (B1 & f2 & D1 & B2 & f3 & D2 & B3 & f4 & D3 & B4 & f5 & D4 & B5 & _) e2 a b.
  pose proof (taylor5 f f1 f2 f3 f4 f5 D0 D1 D2 D3 D4 B5) as T5. pose proof (taylor4 f1 f2 f3 f4 f5 D1 D2 D3 D4 B5) as T4.
  pose proof (small_big (1/2) 5 _ ltac:(lra) T5) as R2. pose proof (small_big 1 5 _ ltac:(lra) T5) as R1.
  pose proof (small_big (1/2) 4 _ ltac:(lra) T4) as Q2. pose proof (small_big 1 4 _ ltac:(lra) T4) as Q1. cbv beta in R1, R2, Q1, Q2. clear T4 T5.
  set (r1 := fun t h => _) in R1. set (r2 := fun t h => _) in R2. set (q1 := fun t h => _) in Q1. set (q2 := fun t h => _) in Q2.
  assert (H2 : forall c, big 2 (fun t h => h ^ 2 * (c * f2 t))) by (intros c; apply (big_h 2 0), big_scal, bounded_big, B2).
  assert (H3 : forall c, big 3 (fun t h => h ^ 3 * (c * f3 t))) by (intros c; apply (big_h 3 0), big_scal, bounded_big, B3).
  assert (H4 : forall c, big 4 (fun t h => h ^ 4 * (c * f4 t))) by (intros c; apply (big_h 4 0), big_scal, bounded_big, B4).
  pose proof (big_h 1 4 _ Q2) as Q2'. pose proof (big_h 1 4 _ Q1) as Q1'. cbn [Nat.add] in Q1', Q2'.
  assert (W : forall p q f, (p <=? q)%nat = true -> big q f -> big p f) by (intros p q u Hpq; apply big_weaken; now apply Nat.leb_le).
  assert (Ee : forall t h, e2 t h = h ^ 2 * (-1/8 * f2 t) + (h ^ 3 * (-1/48 * f3 t) + (h ^ 4 * (-1/384 * f4 t) - r2 t h))) by (intros; unfold e2, r2; field).
  assert (Ea : forall t h, a t h = h ^ 2 * (1/8 * f2 t) + (h ^ 3 * (1/24 * f3 t) + (h ^ 4 * (1/128 * f4 t) + (1/2 * (h ^ 1 * q2 t h) - r2 t h)))) by (intros; unfold a, r2, q2; field).
  assert (Eb : forall t h, b t h = h ^ 3 * (-1/24 * f3 t) + (h ^ 4 * (-1/48 * f4 t) + (h ^ 1 * q2 t h - r1 t h))) by (intros; unfold b, r1, q2; field).
  split; [|split; [|split; [|split]]].
  - eapply big_ext; [intros; symmetry; apply Ee|]. apply big_plus; [apply H2|apply big_plus; [eapply W; [|apply H3]; reflexivity|apply big_minus; [eapply W; [|apply H4]; reflexivity|eapply W; [|exact R2]; reflexivity]]].
  - eapply (big_ext _ (fun t h => h ^ 3 * (1/48 * f3 t) + (h ^ 4 * (1/192 * f4 t) + (1/2 * (h ^ 1 * q2 t h) - 2 * r2 t h)))); [intros; rewrite Ee, Ea; field|].
    apply big_plus; [apply H3|apply big_plus; [eapply W; [|apply H4]; reflexivity|apply big_minus; apply big_scal; [eapply W; [|exact Q2']; reflexivity|eapply W; [|exact R2]; reflexivity]]].
  - eapply (big_ext _ (fun t h => h ^ 4 * (-1/96 * f4 t) + (2 * (h ^ 1 * q2 t h) - (4 * r2 t h + r1 t h)))); [intros; rewrite Ee, Ea, Eb; field|].
    apply big_plus; [apply H4|apply big_minus; [apply big_scal; eapply W; [|exact Q2']; reflexivity|apply big_plus; [apply big_scal|]; eapply W; [|exact R2| |exact R1]; reflexivity]].
  - eapply big_ext; [intros; symmetry; apply Eb|]. apply big_plus; [apply H3|apply big_plus; [eapply W; [|apply H4]; reflexivity|apply big_minus; (eapply W; [|eassumption]; reflexivity)]].
  - eapply (big_ext _ (fun t h => 2/3 * (h ^ 1 * q2 t h) + (1/6 * (h ^ 1 * q1 t h) - r1 t h))); [intros; unfold q1, q2, r1; field|].
    apply big_plus; [now apply big_scal|apply big_minus; [now apply big_scal|exact R1]].
Qed.
End Order.
