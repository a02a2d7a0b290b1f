(** Proofs: the local error of the classical Runge-Kutta scheme for x_i' = -x_i + kap_i sum_j w_ij tanh (al x_j) is of order h^5 (for C102). *)
From Verif Require Import Base RFacts PTanh PTaylor.
From Coq Require Import Reals Lra Psatz.
Local Open Scope R_scope.

(** ** tanh *)
Lemma tanh_derivative x : derivable_pt_lim tanh x (1 - tanh x * tanh x).
Proof.
  pose proof (cosh_pos x) as Hc.
  assert (E : 1 - tanh x * tanh x = (cosh x * cosh x - sinh x * sinh x) / (cosh x)²) by (unfold tanh, Rsqr; field; lra).
  rewrite E. change tanh with (fun x => sinh x / cosh x).
  apply (derivable_pt_lim_div sinh cosh); [apply derivable_pt_lim_sinh|apply derivable_pt_lim_cosh|lra].
Qed.
Lemma tanh_second a d : Rabs (tanh (a + d) - tanh a - (1 - tanh a * tanh a) * d) <= 2 * (d * d).
Proof.
  destruct (Req_dec d 0) as [->|Hd].
  - rewrite Rplus_0_r. replace (tanh a - tanh a - (1 - tanh a * tanh a) * 0) with 0 by ring. rewrite Rabs_R0. lra.
  - assert (M : exists c, tanh (a + d) - tanh a = (1 - tanh c * tanh c) * d /\ Rabs (c - a) <= Rabs d).
    { destruct (Rlt_le_dec 0 d) as [Hp|Hp].
      - destruct (MVT_cor2 tanh (fun x => 1 - tanh x * tanh x) a (a + d) ltac:(lra)) as (c & E & Hc); [intros; apply tanh_derivative|]. exists c. split; [rewrite E; ring|]. rewrite !Rabs_right; lra.
      - destruct (MVT_cor2 tanh (fun x => 1 - tanh x * tanh x) (a + d) a ltac:(lra)) as (c & E & Hc); [intros; apply tanh_derivative|]. exists c. split.
        + replace (tanh (a + d) - tanh a) with (- (tanh a - tanh (a + d))) by ring. rewrite E. ring.
        + rewrite !Rabs_left1; lra. }
    destruct M as (c & E & Hc). rewrite E. replace ((1 - tanh c * tanh c) * d - (1 - tanh a * tanh a) * d) with ((tanh a - tanh c) * (tanh a + tanh c) * d) by ring.
    rewrite !Rabs_mult. pose proof (tanh_lipschitz a c) as L. rewrite <- (Rabs_Ropp (a - c)) in L. replace (- (a - c)) with (c - a) in L by ring.
    assert (S : Rabs (tanh a + tanh c) <= 2). { eapply Rle_trans; [apply Rabs_triang|]. pose proof (tanh_abs_lt_1 a). pose proof (tanh_abs_lt_1 c). lra. }
    replace (2 * (d * d)) with (Rabs d * 2 * Rabs d). 2:{ replace (Rabs d * 2 * Rabs d) with (2 * (Rabs d * Rabs d)) by ring. f_equal. rewrite <- Rabs_mult. apply Rabs_right. nra. }
    apply Rmult_le_compat_r; [apply Rabs_pos|]. apply Rmult_le_compat; try apply Rabs_pos; lra.
Qed.

Section System.
Variables (T : R) (n : nat) (kap : nat -> R) (al : R) (W : nat -> list (nat * R)) (y : nat -> R -> R).
Hypothesis HW : forall i p, (i < n)%nat -> In p (W i) -> (fst p < n)%nat.
(** The right-hand side. *)
Definition rhs (i : nat) (u : nat -> R) : R := - u i + kap i * Rsum (map (fun p => snd p * tanh (al * u (fst p))) (W i)).
Hypothesis Hode : forall i t, (i < n)%nat -> 0 <= t <= T -> derivable_pt_lim (y i) t (rhs i (fun j => y j t)).
Hypothesis Hbound : forall i, (i < n)%nat -> bounded_on T (y i).

Notation big := (big T). Notation smooth := (smooth T).
Let th j t := tanh (al * y j t).
Definition speed i t := rhs i (fun j => y j t).

Lemma th_derivative j t : (j < n)%nat -> 0 <= t <= T -> derivable_pt_lim (th j) t (al * speed j t * (1 + -1 * (th j t * th j t))).
Proof using Hode.
  intros Hj Ht. replace (al * speed j t * (1 + -1 * (th j t * th j t))) with ((1 - th j t * th j t) * (al * speed j t)) by ring.
  unfold th. apply (derivable_pt_lim_comp (fun t => al * y j t) tanh); [|apply tanh_derivative].
  apply (derivable_pt_lim_scal (y j)). now apply Hode.
Qed.
Lemma th_bounded j : bounded_on T (th j).
Proof. exists 1. split; [lra|]. intros t _. left. apply tanh_abs_lt_1. Qed.
Lemma speed_smooth m : (forall j, (j < n)%nat -> smooth m (y j) /\ smooth m (th j)) -> forall i, (i < n)%nat -> smooth m (speed i).
Proof using HW.
  intros H i Hi. unfold speed, rhs.
  apply (smooth_plus T m (fun t => - y i t) (fun t => kap i * Rsum (map (fun p => snd p * th (fst p) t) (W i)))).
  - apply smooth_opp. now apply H.
  - apply (smooth_mult T m (fun _ => kap i)); [apply smooth_const|]. apply (smooth_sum T m (W i) (fun p t => snd p * th (fst p) t)).
    intros p Hp. apply (smooth_mult T m (fun _ => snd p)); [apply smooth_const|]. apply H. eapply HW; eauto.
Qed.
Lemma all_smooth m : forall j, (j < n)%nat -> smooth m (y j) /\ smooth m (th j).
Proof using HW Hode Hbound.
  induction m as [|m IH]; intros j Hj.
  - split; (split; [|exact I]); [now apply Hbound|apply th_bounded].
  - pose proof (speed_smooth m IH) as S. split; cbn [PTaylor.smooth].
    + split; [now apply Hbound|]. exists (speed j). split; [intros t Ht; now apply Hode|now apply S].
    + split; [apply th_bounded|]. exists (fun t => al * speed j t * (1 + -1 * (th j t * th j t))). split; [intros t Ht; now apply th_derivative|].
      apply smooth_mult; [apply (smooth_mult T m (fun _ => al)); [apply smooth_const|now apply S]|].
      apply (smooth_plus T m (fun _ => 1)); [apply smooth_const|]. apply (smooth_mult T m (fun _ => -1)); [apply smooth_const|]. apply smooth_mult; now apply IH.
Qed.

(** ** The stages started on the solution *)
Definition at_ (c : R) (e : nat -> R -> R -> R) (t h : R) (j : nat) : R := y j (t + c * h) + e j t h.
(** The linear part of [rhs] at time t + c h. *)
Definition lin (c : R) (i : nat) (e : nat -> R -> R -> R) (t h : R) : R :=
  - e i t h + kap i * Rsum (map (fun p => snd p * ((1 - th (fst p) (t + c * h) * th (fst p) (t + c * h)) * (al * e (fst p) t h))) (W i)).
Lemma rhs_linear c p i e : (i < n)%nat -> (forall j, (j < n)%nat -> big p (e j)) ->
  big (p + p) (fun t h => rhs i (at_ c e t h) - speed i (t + c * h) - lin c i e t h).
Proof using HW.
  intros Hi He.
  apply (big_ext T (p + p) (fun t h => kap i * Rsum (map (fun q => snd q * (tanh (al * y (fst q) (t + c * h) + al * e (fst q) t h) - tanh (al * y (fst q) (t + c * h)) -
     (1 - tanh (al * y (fst q) (t + c * h)) * tanh (al * y (fst q) (t + c * h))) * (al * e (fst q) t h))) (W i)))).
  - intros t h _ _ _. unfold rhs, speed, lin, rhs, at_. fold (th i (t + c * h)). generalize (W i) as l. intros l.
    assert (S : forall l, Rsum (map (fun q => snd q * (tanh (al * y (fst q) (t + c * h) + al * e (fst q) t h) - tanh (al * y (fst q) (t + c * h)) -
        (1 - tanh (al * y (fst q) (t + c * h)) * tanh (al * y (fst q) (t + c * h))) * (al * e (fst q) t h))) l) =
      Rsum (map (fun p0 => snd p0 * tanh (al * (y (fst p0) (t + c * h) + e (fst p0) t h))) l) - Rsum (map (fun p0 => snd p0 * tanh (al * y (fst p0) (t + c * h))) l) -
      Rsum (map (fun p0 => snd p0 * ((1 - th (fst p0) (t + c * h) * th (fst p0) (t + c * h)) * (al * e (fst p0) t h))) l)).
    { clear. induction l as [|q l IH]; cbn [map]; rewrite ?Rsum_nil, ?Rsum_cons; [ring|]. rewrite IH. unfold th. rewrite Rmult_plus_distr_l. ring. }
    rewrite S. ring.
  - apply big_scal, big_sum. intros q Hq. apply big_scal. destruct (He (fst q) (HW i q Hi Hq)) as (C & HC & H). exists (2 * (Rabs al * C * (Rabs al * C))). split.
    + assert (0 <= Rabs al * C) by (apply Rmult_le_pos; auto; apply Rabs_pos). nra.
    + intros t h H1 H2 H3. eapply Rle_trans; [apply tanh_second|]. specialize (H t h H1 H2 H3). rewrite pow_add.
      replace (al * e (fst q) t h * (al * e (fst q) t h)) with (Rabs (al * e (fst q) t h) * Rabs (al * e (fst q) t h)) by (rewrite <- Rabs_mult; apply Rabs_right; nra).
      rewrite Rabs_mult. assert (A : Rabs al * Rabs (e (fst q) t h) <= Rabs al * C * h ^ p) by (rewrite Rmult_assoc; apply Rmult_le_compat_l; [apply Rabs_pos|exact H]).
      assert (0 <= Rabs al * Rabs (e (fst q) t h)) by (apply Rmult_le_pos; apply Rabs_pos). nra.
Qed.
Lemma lin_big c p i e : 0 <= c <= 1 -> (i < n)%nat -> (forall j, (j < n)%nat -> big p (e j)) -> big p (lin c i e).
Proof using HW.
  intros Hc Hi He. apply (big_ext T p (fun t h => -1 * e i t h + kap i * Rsum (map (fun q => snd q * ((1 - th (fst q) (t + c * h) * th (fst q) (t + c * h)) * (al * e (fst q) t h))) (W i))));
    [intros; unfold lin; ring|].
  apply big_plus; [apply big_scal; now apply He|]. apply big_scal, big_sum. intros q Hq. apply big_scal. apply (big_mult T 0 p); [|apply big_scal, He; eapply HW; eauto].
  exists 1. split; [lra|]. intros t h _ _ _. cbn [pow]. pose proof (tanh_abs_lt_1 (al * y (fst q) (t + c * h))) as B. fold (th (fst q) (t + c * h)) in B.
  apply Rabs_def2 in B. apply Rabs_le. split; nra.
Qed.
Lemma lin_shift c p i e : 0 <= c <= 1 -> (i < n)%nat -> (forall j, (j < n)%nat -> big p (e j)) -> big (S p) (fun t h => lin c i e t h - lin 0 i e t h).
Proof using HW Hode Hbound.
  intros Hc Hi He.
  apply (big_ext T (S p) (fun t h => kap i * Rsum (map (fun q => snd q * (((th (fst q) t - th (fst q) (t + c * h)) * (th (fst q) t + th (fst q) (t + c * h))) * (al * e (fst q) t h))) (W i)))).
  - intros t h _ _ _. unfold lin. rewrite Rmult_0_l, Rplus_0_r. generalize (W i) as l. intros l.
    assert (S : forall l, Rsum (map (fun q => snd q * (((th (fst q) t - th (fst q) (t + c * h)) * (th (fst q) t + th (fst q) (t + c * h))) * (al * e (fst q) t h))) l) =
      Rsum (map (fun p0 => snd p0 * ((1 - th (fst p0) (t + c * h) * th (fst p0) (t + c * h)) * (al * e (fst p0) t h))) l) -
      Rsum (map (fun p0 => snd p0 * ((1 - th (fst p0) t * th (fst p0) t) * (al * e (fst p0) t h))) l)).
    { clear. induction l as [|q l IH]; cbn [map]; rewrite ?Rsum_nil, ?Rsum_cons; [ring|]. rewrite IH. ring. }
    rewrite S. ring.
  - apply big_scal, big_sum. intros q Hq. apply big_scal. pose proof (HW i q Hi Hq) as Hj. change (S p) with (1 + p)%nat. apply big_mult; [|apply big_scal; now apply He].
    destruct (all_smooth 1 (fst q) Hj) as (_ & _ & f' & D & (B & HB & Bd) & _). exists (B * 2). split; [lra|]. intros t h H1 H2 H3. rewrite pow_1, Rabs_mult.
    assert (A : Rabs (th (fst q) t - th (fst q) (t + c * h)) <= B * h).
    { destruct (Req_dec c 0) as [->|Hc0]; [rewrite Rmult_0_l, Rplus_0_r, Rminus_diag_eq, Rabs_R0 by auto; nra|].
      assert (0 < c * h) by nra. assert (c * h <= h) by nra.
      destruct (MVT_cor2 (th (fst q)) f' t (t + c * h) ltac:(lra)) as (x & E & Hx); [intros u Hu; apply D; lra|].
      rewrite <- Rabs_Ropp. replace (- (th (fst q) t - th (fst q) (t + c * h))) with (th (fst q) (t + c * h) - th (fst q) t) by ring. rewrite E, Rabs_mult.
      replace (t + c * h - t) with (c * h) by ring. rewrite (Rabs_right (c * h)) by lra. specialize (Bd x ltac:(lra)). pose proof (Rabs_pos (f' x)). apply Rmult_le_compat; lra. }
    assert (A2 : Rabs (th (fst q) t + th (fst q) (t + c * h)) <= 2).
    { eapply Rle_trans; [apply Rabs_triang|]. unfold th. pose proof (tanh_abs_lt_1 (al * y (fst q) t)). pose proof (tanh_abs_lt_1 (al * y (fst q) (t + c * h))). lra. }
    replace (B * 2 * h) with (B * h * 2) by ring. apply Rmult_le_compat; auto using Rabs_pos.
Qed.
Lemma lin_combination c i e e' u v t h : lin c i (fun j t h => u * e j t h + v * e' j t h) t h = u * lin c i e t h + v * lin c i e' t h.
Proof.
  unfold lin. assert (S : forall l, Rsum (map (fun p => snd p * ((1 - th (fst p) (t + c * h) * th (fst p) (t + c * h)) * (al * (u * e (fst p) t h + v * e' (fst p) t h)))) l) =
    u * Rsum (map (fun p => snd p * ((1 - th (fst p) (t + c * h) * th (fst p) (t + c * h)) * (al * e (fst p) t h))) l) +
    v * Rsum (map (fun p => snd p * ((1 - th (fst p) (t + c * h) * th (fst p) (t + c * h)) * (al * e' (fst p) t h))) l)).
  { induction l as [|q l IH]; cbn [map]; rewrite ?Rsum_nil, ?Rsum_cons; [ring|]. rewrite IH. ring. }
  rewrite S. ring.
Qed.

(** The stages. *)
Definition stage2 t h j := y j t + h / 2 * rhs j (fun j => y j t).
Definition stage3 t h j := y j t + h / 2 * rhs j (stage2 t h).
Definition stage4 t h j := y j t + h * rhs j (stage3 t h).
Definition rk_step t h i := y i t + h / 6 * (rhs i (fun j => y j t) + 2 * rhs i (stage2 t h) + 2 * rhs i (stage3 t h) + rhs i (stage4 t h)).
Let e2 j t h := stage2 t h j - y j (t + 1 / 2 * h).
Let e3 j t h := stage3 t h j - y j (t + 1 / 2 * h).
Let e4 j t h := stage4 t h j - y j (t + 1 * h).
Let a j t h := y j t + h / 2 * speed j (t + 1 / 2 * h) - y j (t + 1 / 2 * h).
Let b j t h := y j t + h * speed j (t + 1 / 2 * h) - y j (t + 1 * h).
Lemma local_error : forall i, (i < n)%nat -> big 5 (fun t h => rk_step t h i - y i (t + 1 * h)).
Proof using HW Hode Hbound.
  assert (W0 : forall p q f, (p <=? q)%nat = true -> big q f -> big p f) by (intros p q u Hpq; apply big_weaken; now apply Nat.leb_le).
  assert (TF : forall j, (j < n)%nat -> _) by (intros j Hj; exact (taylor_facts T (y j) (speed j) (fun t Ht => Hode j t Hj Ht) (speed_smooth 4 (all_smooth 4) j Hj))).
  assert (T1 : forall j, (j < n)%nat -> big 2 (e2 j)) by (intros j Hj; apply (TF j Hj)).
  assert (T2 : forall j, (j < n)%nat -> big 3 (fun t h => e2 j t h + a j t h)) by (intros j Hj; apply (TF j Hj)).
  assert (T3 : forall j, (j < n)%nat -> big 4 (fun t h => 2 * e2 j t h + 2 * a j t h + b j t h)) by (intros j Hj; apply (TF j Hj)).
  assert (T4 : forall j, (j < n)%nat -> big 3 (b j)) by (intros j Hj; apply (TF j Hj)).
  assert (T5 : forall j, (j < n)%nat -> big 5 (fun t h => y j t + h / 6 * (speed j t + 4 * speed j (t + 1 / 2 * h) + speed j (t + 1 * h)) - y j (t + 1 * h))) by (intros j Hj; apply (TF j Hj)).
  clear TF.
  assert (A2 : forall t h j, at_ (1/2) e2 t h j = stage2 t h j) by (intros; unfold at_, e2; ring).
  assert (A3 : forall t h j, at_ (1/2) e3 t h j = stage3 t h j) by (intros; unfold at_, e3; ring).
  assert (A4 : forall t h j, at_ 1 e4 t h j = stage4 t h j) by (intros; unfold at_, e4; ring).
  assert (RX : forall i u v, (forall j, u j = v j) -> rhs i u = rhs i v).
  { intros i u v E. unfold rhs. rewrite E. do 2 f_equal. f_equal. apply map_ext. intros q. now rewrite E. }
  (* second stage *)
  set (d2 := fun j t h => rhs j (stage2 t h) - speed j (t + 1 / 2 * h)).
  assert (L2 : forall i, (i < n)%nat -> big 4 (fun t h => d2 i t h - lin (1/2) i e2 t h)).
  { intros i Hi. eapply big_ext; [|apply (rhs_linear (1/2) 2 i e2 Hi T1)]. intros t h _ _ _. cbv beta. unfold d2. rewrite (RX i _ _ (A2 t h)). reflexivity. }
  assert (M2 : forall i, (i < n)%nat -> big 3 (fun t h => d2 i t h - lin 0 i e2 t h)).
  { intros i Hi. eapply (big_ext _ _ (fun t h => (d2 i t h - lin (1/2) i e2 t h) + (lin (1/2) i e2 t h - lin 0 i e2 t h))); [intros; ring|].
    apply big_plus; [eapply W0; [|now apply L2]; reflexivity|apply lin_shift; auto; lra]. }
  (* third stage *)
  assert (E3 : forall j t h, e3 j t h = a j t h + 1/2 * (h ^ 1 * d2 j t h)) by (intros; unfold e3, a, d2, stage3; field).
  assert (B2 : forall j, (j < n)%nat -> big 2 (d2 j)).
  { intros j Hj. eapply (big_ext _ _ (fun t h => (d2 j t h - lin 0 j e2 t h) + lin 0 j e2 t h)); [intros; ring|]. apply big_plus; [eapply W0; [|now apply M2]; reflexivity|apply lin_big; auto; lra]. }
  assert (S23 : forall j, (j < n)%nat -> big 3 (fun t h => 1 * e2 j t h + 1 * e3 j t h)).
  { intros j Hj. eapply (big_ext _ _ (fun t h => (e2 j t h + a j t h) + 1/2 * (h ^ 1 * d2 j t h))); [intros; rewrite E3; ring|].
    apply big_plus; [now apply T2|]. apply big_scal. apply (big_h T 1 2). now apply B2. }
  assert (T1' : forall j, (j < n)%nat -> big 2 (e3 j)).
  { intros j Hj. eapply (big_ext _ _ (fun t h => (1 * e2 j t h + 1 * e3 j t h) - e2 j t h)); [intros; ring|]. apply big_minus; [eapply W0; [|now apply S23]; reflexivity|now apply T1]. }
  set (d3 := fun j t h => rhs j (stage3 t h) - speed j (t + 1 / 2 * h)).
  assert (L3 : forall i, (i < n)%nat -> big 4 (fun t h => d3 i t h - lin (1/2) i e3 t h)).
  { intros i Hi. eapply big_ext; [|apply (rhs_linear (1/2) 2 i e3 Hi T1')]. intros t h _ _ _. cbv beta. unfold d3. rewrite (RX i _ _ (A3 t h)). reflexivity. }
  assert (M3 : forall i, (i < n)%nat -> big 3 (fun t h => d3 i t h + lin 0 i e2 t h)).
  { intros i Hi. eapply (big_ext _ _ (fun t h => (d3 i t h - lin (1/2) i e3 t h) + (lin (1/2) i e3 t h - lin 0 i e3 t h) + lin 0 i (fun j t h => 1 * e2 j t h + 1 * e3 j t h) t h)); [intros; rewrite lin_combination; ring|].
    apply big_plus; [apply big_plus; [eapply W0; [|now apply L3]; reflexivity|apply lin_shift; auto; lra]|]. apply lin_big; auto; lra. }
  (* fourth stage *)
  assert (E4 : forall j t h, e4 j t h = b j t h + h ^ 1 * d3 j t h) by (intros; unfold e4, b, d3, stage4; ring).
  assert (S4 : forall j, (j < n)%nat -> big 4 (fun t h => 2 * (1 * e2 j t h + 1 * e3 j t h) + 1 * e4 j t h)).
  { intros j Hj. eapply (big_ext _ _ (fun t h => (2 * e2 j t h + 2 * a j t h + b j t h) + (h ^ 1 * (d2 j t h - lin 0 j e2 t h) + h ^ 1 * (d3 j t h + lin 0 j e2 t h)))).
    { intros. rewrite E3, E4. field. }
    apply big_plus; [now apply T3|]. apply big_plus; apply (big_h T 1 3); [now apply M2|now apply M3]. }
  assert (T1'' : forall j, (j < n)%nat -> big 3 (e4 j)).
  { intros j Hj. eapply (big_ext _ _ (fun t h => (2 * (1 * e2 j t h + 1 * e3 j t h) + 1 * e4 j t h) - 2 * (1 * e2 j t h + 1 * e3 j t h))); [intros; ring|].
    apply big_minus; [eapply W0; [|now apply S4]; reflexivity|]. apply big_scal. now apply S23. }
  set (d4 := fun j t h => rhs j (stage4 t h) - speed j (t + 1 * h)).
  assert (L4 : forall i, (i < n)%nat -> big 6 (fun t h => d4 i t h - lin 1 i e4 t h)).
  { intros i Hi. eapply big_ext; [|apply (rhs_linear 1 3 i e4 Hi T1'')]. intros t h _ _ _. cbv beta. unfold d4. rewrite (RX i _ _ (A4 t h)). reflexivity. }
  (* the weighted sum *)
  intros i Hi.
  assert (D : big 4 (fun t h => 2 * d2 i t h + 2 * d3 i t h + d4 i t h)).
  { eapply (big_ext _ _ (fun t h => 2 * (d2 i t h - lin (1/2) i e2 t h) + 2 * (d3 i t h - lin (1/2) i e3 t h) + (d4 i t h - lin 1 i e4 t h) +
       2 * (lin (1/2) i (fun j t h => 1 * e2 j t h + 1 * e3 j t h) t h - lin 0 i (fun j t h => 1 * e2 j t h + 1 * e3 j t h) t h) + (lin 1 i e4 t h - lin 0 i e4 t h) +
       lin 0 i (fun j t h => 2 * (1 * e2 j t h + 1 * e3 j t h) + 1 * e4 j t h) t h)).
    { intros t h _ _ _. rewrite (lin_combination 0 i (fun j t h => 1 * e2 j t h + 1 * e3 j t h) e4), !lin_combination. ring. }
    apply big_plus; [apply big_plus; [apply big_plus; [apply big_plus; [apply big_plus|]|]|]|].
    - apply big_scal. now apply L2.
    - apply big_scal. now apply L3.
    - exact (W0 4%nat 6%nat _ eq_refl (L4 i Hi)).
    - apply big_scal. apply lin_shift; auto; lra.
    - apply lin_shift; auto; lra.
    - apply lin_big; auto; try lra. }
  eapply (big_ext _ _ (fun t h => (y i t + h / 6 * (speed i t + 4 * speed i (t + 1 / 2 * h) + speed i (t + 1 * h)) - y i (t + 1 * h)) + 1/6 * (h ^ 1 * (2 * d2 i t h + 2 * d3 i t h + d4 i t h)))).
  { intros t h _ _ _. unfold rk_step, d2, d3, d4. change (rhs i (fun j => y j t)) with (speed i t). field. }
  apply big_plus; [now apply T5|]. apply big_scal. apply (big_h T 1 4). exact D.
Qed.

(** ** Starting near the solution *)
Lemma rhs_lipschitz : exists L, 1 <= L /\ forall i u v d, (i < n)%nat -> (forall j, (j < n)%nat -> Rabs (u j - v j) <= d) -> Rabs (rhs i u - rhs i v) <= L * d.
Proof using HW.
  set (w := fun i => Rabs (kap i) * (Rabs al * Rsum (map (fun p => Rabs (snd p)) (W i)))).
  assert (SP : forall l : list (nat * R), 0 <= Rsum (map (fun p => Rabs (snd p)) l)).
  { induction l as [|q l IH]; cbn [map]; rewrite ?Rsum_nil, ?Rsum_cons; [lra|]. pose proof (Rabs_pos (snd q)). lra. }
  assert (Wp : forall i, 0 <= w i) by (intros i; apply Rmult_le_pos; [apply Rabs_pos|apply Rmult_le_pos; [apply Rabs_pos|apply SP]]).
  assert (M : forall m, exists B, 0 <= B /\ forall i, (i < m)%nat -> w i <= B).
  { induction m as [|m (B & HB & H)]; [exists 0; split; [lra|lia]|]. exists (B + w m). pose proof (Wp m). split; [lra|]. intros i Hi.
    destruct (Nat.eq_dec i m) as [->|]; [lra|]. specialize (H i ltac:(lia)). lra. }
  destruct (M n) as (B & HB & HBw). exists (1 + B). split; [lra|]. intros i u v d Hi Hd.
  assert (d0 : 0 <= d) by (eapply Rle_trans; [apply Rabs_pos|apply (Hd i Hi)]).
  assert (S : forall l, (forall p, In p l -> (fst p < n)%nat) -> Rabs (Rsum (map (fun p => snd p * tanh (al * u (fst p))) l) - Rsum (map (fun p => snd p * tanh (al * v (fst p))) l)) <=
     Rabs al * Rsum (map (fun p => Rabs (snd p)) l) * d).
  { induction l as [|q l IH]; intros Hl; cbn [map]; rewrite ?Rsum_nil, ?Rsum_cons; [rewrite Rminus_0_r, Rabs_R0; lra|].
    specialize (IH (fun p Hp => Hl p (or_intror Hp))). pose proof (Hd (fst q) (Hl q (or_introl eq_refl))) as Hq.
    replace (snd q * tanh (al * u (fst q)) + Rsum (map (fun p => snd p * tanh (al * u (fst p))) l) - (snd q * tanh (al * v (fst q)) + Rsum (map (fun p => snd p * tanh (al * v (fst p))) l)))
      with (snd q * (tanh (al * u (fst q)) - tanh (al * v (fst q))) + (Rsum (map (fun p => snd p * tanh (al * u (fst p))) l) - Rsum (map (fun p => snd p * tanh (al * v (fst p))) l))) by ring.
    eapply Rle_trans; [apply Rabs_triang|]. rewrite Rabs_mult.
    assert (Q : Rabs (tanh (al * u (fst q)) - tanh (al * v (fst q))) <= Rabs al * d).
    { eapply Rle_trans; [apply tanh_lipschitz|]. rewrite <- Rmult_minus_distr_l, Rabs_mult. apply Rmult_le_compat_l; [apply Rabs_pos|exact Hq]. }
    assert (Rabs (snd q) * Rabs (tanh (al * u (fst q)) - tanh (al * v (fst q))) <= Rabs (snd q) * (Rabs al * d)) by (apply Rmult_le_compat_l; [apply Rabs_pos|exact Q]). lra. }
  specialize (S (W i) (fun p Hp => HW i p Hi Hp)). unfold rhs.
  replace (- u i + kap i * Rsum (map (fun p => snd p * tanh (al * u (fst p))) (W i)) - (- v i + kap i * Rsum (map (fun p => snd p * tanh (al * v (fst p))) (W i))))
    with (- (u i - v i) + kap i * (Rsum (map (fun p => snd p * tanh (al * u (fst p))) (W i)) - Rsum (map (fun p => snd p * tanh (al * v (fst p))) (W i)))) by ring.
  eapply Rle_trans; [apply Rabs_triang|]. rewrite Rabs_Ropp, Rabs_mult. specialize (Hd i Hi). specialize (HBw i Hi).
  assert (A : Rabs (kap i) * Rabs (Rsum (map (fun p => snd p * tanh (al * u (fst p))) (W i)) - Rsum (map (fun p => snd p * tanh (al * v (fst p))) (W i))) <= w i * d).
  { unfold w. rewrite Rmult_assoc. apply Rmult_le_compat_l; [apply Rabs_pos|exact S]. }
  assert (w i * d <= B * d) by (apply Rmult_le_compat_r; auto). lra.
Qed.
Lemma rk_near : exists Lam C, 1 <= Lam /\ 0 <= C /\ forall t h (x x2 x3 x4 : nat -> R) e, 0 <= t -> 0 < h -> t + h <= T -> 0 <= e ->
  (forall i, (i < n)%nat -> Rabs (x i - y i t) <= e) ->
  (forall i, (i < n)%nat -> x2 i = x i + h / 2 * rhs i x /\ x3 i = x i + h / 2 * rhs i x2 /\ x4 i = x i + h * rhs i x3) ->
  forall i, (i < n)%nat -> Rabs (x i + h / 6 * (rhs i x + 2 * rhs i x2 + 2 * rhs i x3 + rhs i x4) - y i (t + h)) <= (1 + Lam * h) * e + C * h ^ 5.
Proof using HW Hode Hbound.
  destruct rhs_lipschitz as (L & L1 & HL). destruct (big_uniform T n 5 _ local_error) as (C & HC & HE).
  set (q := 1 + Rabs T * L). assert (q1 : 1 <= q). { unfold q. assert (0 <= Rabs T * L) by (apply Rmult_le_pos; [apply Rabs_pos|lra]). lra. }
  assert (q12 : 1 <= q * q) by nra. assert (q13 : 1 <= q * q * q) by nra.
  exists (L * (q * q * q)), C. split; [nra|]. split; auto. intros t h x x2 x3 x4 e H1 H2 H3 He Hx HS i Hi.
  assert (hT : h <= Rabs T) by (pose proof (Rle_abs T); lra).
  assert (Stage : forall s u v d d', 0 <= s <= h -> 0 <= d -> (forall j, (j < n)%nat -> Rabs (u j - v j) <= d) -> d <= d' -> e <= d' ->
     forall j, (j < n)%nat -> Rabs ((x j + s * rhs j u) - (y j t + s * rhs j v)) <= e + Rabs T * L * d').
  { intros s u v d d' Hs Hd Huv Hdd Hed j Hj. replace (x j + s * rhs j u - (y j t + s * rhs j v)) with ((x j - y j t) + s * (rhs j u - rhs j v)) by ring.
    eapply Rle_trans; [apply Rabs_triang|]. rewrite Rabs_mult, (Rabs_right s) by lra. pose proof (HL j u v d Hj Huv) as A. specialize (Hx j Hj).
    apply Rplus_le_compat; auto. replace (Rabs T * L * d') with (Rabs T * (L * d')) by ring. apply Rmult_le_compat; try lra; try apply Rabs_pos. eapply Rle_trans; [exact A|]. apply Rmult_le_compat_l; lra. }
  assert (N1 : forall j, (j < n)%nat -> Rabs (x j - (fun j => y j t) j) <= e) by exact Hx.
  assert (N2 : forall j, (j < n)%nat -> Rabs (x2 j - stage2 t h j) <= q * e).
  { intros j Hj. destruct (HS j Hj) as (-> & _). unfold stage2. eapply Rle_trans; [apply (Stage (h / 2) x (fun j => y j t) e e); auto; lra|]. unfold q. lra. }
  assert (N3 : forall j, (j < n)%nat -> Rabs (x3 j - stage3 t h j) <= q * q * e).
  { intros j Hj. destruct (HS j Hj) as (_ & -> & _). unfold stage3. eapply Rle_trans; [apply (Stage (h / 2) x2 (stage2 t h) (q * e) (q * e)); auto; nra|]. unfold q at 2. nra. }
  assert (N4 : forall j, (j < n)%nat -> Rabs (x4 j - stage4 t h j) <= q * q * q * e).
  { intros j Hj. destruct (HS j Hj) as (_ & _ & ->). unfold stage4. eapply Rle_trans; [apply (Stage h x3 (stage3 t h) (q * q * e) (q * q * e)); auto; nra|]. unfold q at 3. nra. }
  pose proof (HL i x (fun j => y j t) e Hi N1) as K1. pose proof (HL i x2 (stage2 t h) (q * e) Hi N2) as K2. pose proof (HL i x3 (stage3 t h) (q * q * e) Hi N3) as K3. pose proof (HL i x4 (stage4 t h) (q * q * q * e) Hi N4) as K4.
  specialize (HE i t h Hi H1 H2 H3). rewrite Rmult_1_l in HE. specialize (Hx i Hi). unfold rk_step in HE.
  set (k1 := rhs i x) in *. set (k2 := rhs i x2) in *. set (k3 := rhs i x3) in *. set (k4 := rhs i x4) in *.
  set (z1 := rhs i (fun j => y j t)) in *. set (z2 := rhs i (stage2 t h)) in *. set (z3 := rhs i (stage3 t h)) in *. set (z4 := rhs i (stage4 t h)) in *.
  replace (x i + h / 6 * (k1 + 2 * k2 + 2 * k3 + k4) - y i (t + h))
    with ((x i - y i t) + (h / 6 * ((k1 - z1) + 2 * (k2 - z2) + 2 * (k3 - z3) + (k4 - z4))) + (y i t + h / 6 * (z1 + 2 * z2 + 2 * z3 + z4) - y i (t + h))) by ring.
  eapply Rle_trans; [apply Rabs_triang|]. eapply Rle_trans; [apply Rplus_le_compat_r, Rabs_triang|].
  assert (KK : forall a b, Rabs (a + 2 * b) <= Rabs a + 2 * Rabs b).
  { intros u v. eapply Rle_trans; [apply Rabs_triang|]. rewrite Rabs_mult, (Rabs_right 2) by lra. lra. }
  assert (Q2 : q * e <= q * q * q * e) by (apply Rmult_le_compat_r; nra). assert (Q3 : q * q * e <= q * q * q * e) by (apply Rmult_le_compat_r; nra). assert (Q1 : e <= q * q * q * e) by nra.
  assert (Sum : Rabs (k1 - z1 + 2 * (k2 - z2) + 2 * (k3 - z3) + (k4 - z4)) <= 6 * (L * (q * q * q * e))).
  { eapply Rle_trans; [apply Rabs_triang|]. pose proof (KK (k1 - z1 + 2 * (k2 - z2)) (k3 - z3)). pose proof (KK (k1 - z1) (k2 - z2)).
    assert (L * e <= L * (q * q * q * e)) by (apply Rmult_le_compat_l; lra). assert (L * (q * e) <= L * (q * q * q * e)) by (apply Rmult_le_compat_l; lra). assert (L * (q * q * e) <= L * (q * q * q * e)) by (apply Rmult_le_compat_l; lra). lra. }
  rewrite Rabs_mult, (Rabs_right (h / 6)) by lra.
  assert (h / 6 * Rabs (k1 - z1 + 2 * (k2 - z2) + 2 * (k3 - z3) + (k4 - z4)) <= h / 6 * (6 * (L * (q * q * q * e)))) by (apply Rmult_le_compat_l; lra).
  replace ((1 + L * (q * q * q) * h) * e) with (e + h / 6 * (6 * (L * (q * q * q * e)))) by field. lra.
Qed.
End System.
