(** Iterations of the activity-driven model in double precision. *)
From Coq Require Import Reals Lra Psatz.
From Flocq Require Import Core.Core IEEE754.BinarySingleNaN.
From Verif Require Import Base BaseFacts Arith64 RFacts MRandom SRandom PRandom MDist MNetwork SNetwork MAgents MDeGroot MActivity SActivity PActStep PActNet PActIter PActMean PActIter2
  SRelax PRelax PFloat SRounding SFinite PRounding PRounding4 PFinite PFinite2.
Local Open Scope R_scope.
Notation act := (activity_ops (F FA)).

Section Step.
Context (lm : Libm FA) (st : ad_settings float) (h : network (activity_agent float) float) (d : nat) (W M : R).
Hypothesis Ht : tanh_bounded lm.
Hypothesis Hst : moderate_settings st.
Hypothesis Hw : wf h.
Hypothesis Hag : Forall (fun x => moderate_agent x /\ pull_limit st W M x) (agents h).
Hypothesis Hrows : forall i, (i < n_agents h)%nat -> (length (nth i (wts h) []) <= d)%nat /\ Forall finite_double (nth i (wts h) []) /\ Rsum (map Rabs (values (nth i (wts h) []))) <= W.
Hypothesis Hd : INR d <= 2 ^ 40.
Hypothesis HW : 0 <= W <= 2 ^ 100.
Hypothesis HM : / 2 ^ 900 <= M <= 2 ^ 900.

Lemma M_pos : 0 < M. Proof using HM. assert (0 < / 2 ^ 900) by (apply Rinv_0_lt_compat, pow_lt; lra). lra. Qed.

Lemma field_pull (ys : list float) i : (i < n_agents h)%nat -> (forall k, is_finite (nth k ys (f0 FA) : float) = true) -> Rabs (value (nth i ys (f0 FA) : float)) <= 4 * M ->
  is_finite (nth i (field lm act st h ys) (f0 FA) : float) = true /\
  Rabs (value (nth i (field lm act st h ys) (f0 FA) : float) + value (nth i ys (f0 FA) : float)) <= M / 2.
Proof using Ht Hst Hw Hag Hrows Hd HW HM.
  intros Hi Fy Hy. unfold field. rewrite (nth_map_seq _ _ _ i (f0 FA) Hi).
  destruct (nth_error (agents h) i) as [x|] eqn:Ex; [|apply nth_error_None in Ex; unfold n_agents in Hi; lia].
  match goal with |- context [nth_error ?l i] => change (nth_error l i = Some x) in Ex end. rewrite Ex.
  rewrite Forall_forall in Hag. destruct (Hag x (nth_error_In _ _ Ex)) as ((Fr & Hr) & Hp). destruct Hst as (Fal & (FK & HK) & _).
  destruct (Hrows i Hi) as (R1 & R2 & R3). destruct Hw as (W1 & W2 & W3 & W4).
  apply slope_pull with W; try assumption.
  - unfold row. apply Forall_forall. intros [n w] Hin. apply in_combine_r in Hin. rewrite Forall_forall in R2. apply (R2 w Hin).
  - eapply Rle_trans; [|exact Hd]. apply le_INR. unfold row. rewrite combine_length. eapply Nat.le_trans; [apply Nat.le_min_r|exact R1].
  - eapply Rle_trans; [|exact R3]. apply Req_le. apply (row_abs_combine (nth i (neigh h) []) (nth i (wts h) [])). now apply W3.
Qed.

Lemma nth_axpy (xs ks : list (F FA)) c i : length ks = length xs -> (i < length xs)%nat -> nth i (axpy xs c ks) (f0 FA) = fadd FA (nth i xs (f0 FA)) (fmul FA c (nth i ks (f0 FA))).
Proof using.
  intros HL Hi. unfold axpy. apply nth_error_nth. rewrite nth_error_map, nth_error_combine, (nth_error_nth' xs (f0 FA) Hi).
  rewrite (nth_error_nth' ks (f0 FA)) by lia. reflexivity.
Qed.
Lemma axpy_len (xs ks : list (F FA)) c : length ks = length xs -> length (axpy xs c ks) = length xs.
Proof using. intros HL. unfold axpy. rewrite map_length, combine_length. lia. Qed.

(** A stage: from slopes of size at most B to opinions. *)
Lemma stage_all (xs ks : list float) (c : float) (cv : R) B : length xs = n_agents h -> length ks = n_agents h -> Forall (small_finite M) xs -> near c cv (u64 * 1) -> 0 <= cv <= 1 -> B <= 4 * M ->
  (forall i, (i < n_agents h)%nat -> small_finite B (nth i ks (f0 FA))) ->
  (forall k, is_finite (nth k (axpy (a:=FA) xs c ks : list float) (f0 FA)) = true) /\
  (forall i, (i < n_agents h)%nat -> Rabs (value (nth i (axpy (a:=FA) xs c ks : list float) (f0 FA)) - (value (nth i xs (f0 FA)) + cv * value (nth i ks (f0 FA)))) <= 32 * u64 * M).
Proof using HM.
  intros Lx Lk Hx Hc Hcv HB Hk.
  assert (key : forall i, (i < n_agents h)%nat -> near (nth i (axpy (a:=FA) xs c ks : list float) (f0 FA)) (value (nth i xs (f0 FA)) + cv * value (nth i ks (f0 FA))) (32 * u64 * M)).
  { intros i Hi. pose proof (nth_axpy xs ks c i (eq_trans Lk (eq_sym Lx)) (eq_ind_r (fun n => (i < n)%nat) Hi Lx)) as E.
    match goal with |- near ?z _ _ => match type of E with _ = ?y => change (z = y) in E end end. rewrite E. rewrite Forall_forall in Hx. destruct (Hx (nth i xs (f0 FA))) as (F1 & B1); [apply nth_In; rewrite Lx; exact Hi|].
    destruct (Hk i Hi) as (F2 & B2). apply stage_near; try assumption. lra. }
  split; [|intros i Hi; apply (key i Hi)]. intros k. destruct (Nat.lt_ge_cases k (n_agents h)) as [Hi|Hi]; [apply (key k Hi)|].
  match goal with |- is_finite ?z = true => replace z with (f0 FA : float); [reflexivity|symmetry; apply nth_overflow] end.
  pose proof (axpy_len xs ks c (eq_trans Lk (eq_sym Lx))) as L. pose proof (eq_trans L Lx) as L'. eapply Nat.le_trans; [apply Nat.eq_le_incl; exact L'|exact Hi].
Qed.

Lemma Rabs_sum_le a b A B : Rabs a <= A -> Rabs b <= B -> Rabs (a + b) <= A + B.
Proof using. intros. eapply Rle_trans; [apply Rabs_triang|]. lra. Qed.

Lemma rk4_bounded (xs : list float) : length xs = n_agents h -> Forall (small_finite M) xs -> Forall (small_finite M) (rk4_step (field lm act st h) (dt st) xs).
Proof using Ht Hst Hw Hag Hrows Hd HW HM.
  intros Lx Hx. pose proof M_pos as M0. destruct Hst as (Fal & (FK & HK) & Fdt & Hdt). pose proof u64_pos as U. pose proof u64_small as U1. assert (U2 : u64 <= / 1000) by (eapply Rle_trans; [exact U1|cbn; lra]).
  assert (Et : eta64 <= u64 * / 2). { unfold eta64, u64. rewrite <- Rinv_mult. apply Rinv_le_contravar; [apply Rmult_lt_0_compat; [apply pow_lt|]; lra|]. replace (2 ^ 53 * 2) with (2 ^ 54) by (cbn [pow]; ring). apply Rle_pow; [lra|lia]. }
  pose proof eta64_pos as Et0.
  set (hh := value (dt st)) in *. assert (h0 : 0 < hh) by (assert (0 < / 2 ^ 20) by (apply Rinv_0_lt_compat, pow_lt; lra); lra).
  assert (UM : 32 * u64 * M <= M / 30) by nra. assert (UM0 : 0 <= 32 * u64 * M) by nra.
  assert (Nh : near (fmul FA (flit FA 1 2) (dt st)) (hh / 2) (u64 * 1)).
  { destruct const_half as (V & Fv). pose proof (near_self _ Fv) as N. rewrite V in N. replace (hh / 2) with (1 / 2 * hh) by field.
    assert (B1 : 1 / 2 * 1 <= big). { unfold big. assert (1 <= 2 ^ 1000) by (apply pow_R1_Rle; lra). lra. }
    eapply near_weaken; [apply (near_mul _ _ _ _ 0 0 (1/2) 1 N (near_self (dt st) Fdt)); rewrite ?(Rabs_right (1/2)) by lra; try lra|lra]. fold hh. rewrite Rabs_right; lra. }
  assert (N1 : near (dt st) hh (u64 * 1)) by (eapply near_weaken; [apply near_self; exact Fdt|lra]).
  assert (X1 : forall i, (i < n_agents h)%nat -> small_finite M (nth i xs (f0 FA))) by (intros i Hi; rewrite Forall_forall in Hx; apply Hx, nth_In; lia).
  assert (FX : forall k, is_finite (nth k xs (f0 FA) : float) = true).
  { intros k. destruct (Nat.lt_ge_cases k (n_agents h)) as [Hi|Hi]; [apply (X1 k Hi)|]. rewrite nth_overflow by lia. reflexivity. }
  unfold rk4_step. set (k1 := field lm act st h xs). set (y2 := axpy (a:=FA) xs _ k1). set (k2 := field lm act st h y2). set (y3 := axpy (a:=FA) xs _ k2). set (k3 := field lm act st h y3). set (y4 := axpy (a:=FA) xs _ k3). set (k4 := field lm act st h y4).
  assert (L1 : length k1 = n_agents h) by exact (field_length lm act st h xs). assert (L2 : length k2 = n_agents h) by exact (field_length lm act st h y2). assert (L3 : length k3 = n_agents h) by exact (field_length lm act st h y3).
  (* first slopes *)
  assert (P1 : forall i, (i < n_agents h)%nat -> is_finite (nth i k1 (f0 FA) : float) = true /\ Rabs (value (nth i k1 (f0 FA) : float) + value (nth i xs (f0 FA))) <= M / 2).
  { intros i Hi. apply field_pull; auto. destruct (X1 i Hi) as (_ & B1). eapply Rle_trans; [exact B1|]. lra. }
  assert (K1 : forall i, (i < n_agents h)%nat -> small_finite (3 / 2 * M) (nth i k1 (f0 FA))).
  { intros i Hi. destruct (P1 i Hi) as (F1 & B1). destruct (X1 i Hi) as (_ & B2). split; [exact F1|].
    match goal with |- Rabs ?z <= _ => replace z with ((z + value (nth i xs (f0 FA))) + - value (nth i xs (f0 FA))) by ring end.
    eapply Rle_trans; [apply Rabs_sum_le; [exact B1|rewrite Rabs_Ropp; exact B2]|]. lra. }
  (* second slopes *)
  destruct (stage_all xs k1 (fmul FA (flit FA 1 2) (dt st)) (hh / 2) (3 / 2 * M) Lx L1 Hx Nh ltac:(lra) ltac:(lra) K1) as (FY2 & E2). fold y2 in FY2, E2.
  assert (Y2 : forall i, (i < n_agents h)%nat -> Rabs (value (nth i y2 (f0 FA) : float)) <= M + M / 30).
  { intros i Hi. pose proof (E2 i Hi) as E. destruct (X1 i Hi) as (_ & Bx). destruct (P1 i Hi) as (_ & B1). set (x := value (nth i xs (f0 FA))) in *. set (k := value (nth i k1 (f0 FA) : float)) in *.
    match goal with |- Rabs ?z <= _ => replace z with ((1 - hh / 2) * x + hh / 2 * (k + x) + (z - (x + hh / 2 * k))) by ring end.
    apply Rabs_sum_le; [|eapply Rle_trans; [exact E|exact UM]]. eapply Rle_trans; [apply Rabs_triang|]. rewrite !Rabs_mult, (Rabs_right (1 - hh / 2)), (Rabs_right (hh / 2)) by lra.
    assert ((1 - hh / 2) * Rabs x <= (1 - hh / 2) * M) by (apply Rmult_le_compat_l; lra). assert (hh / 2 * Rabs (k + x) <= hh / 2 * M) by (apply Rmult_le_compat_l; lra). lra. }
  assert (P2 : forall i, (i < n_agents h)%nat -> is_finite (nth i k2 (f0 FA) : float) = true /\ Rabs (value (nth i k2 (f0 FA) : float) + value (nth i y2 (f0 FA) : float)) <= M / 2).
  { intros i Hi. apply field_pull; auto. eapply Rle_trans; [apply (Y2 i Hi)|]. lra. }
  assert (SLP : forall (k y : float) B, Rabs (value k + value y) <= M / 2 -> Rabs (value y) <= B -> Rabs (value k) <= M / 2 + B).
  { intros k y B A1 A2. replace (value k) with ((value k + value y) + - value y) by ring. apply Rabs_sum_le; [exact A1|rewrite Rabs_Ropp; exact A2]. }
  assert (K2 : forall i, (i < n_agents h)%nat -> small_finite (16 / 10 * M) (nth i k2 (f0 FA))).
  { intros i Hi. destruct (P2 i Hi) as (F1 & B1). split; [exact F1|]. eapply Rle_trans; [apply (SLP _ _ _ B1 (Y2 i Hi))|]. lra. }
  (* a later stage *)
  assert (STG : forall (ys : list float) (ks : list float) cv B, 0 <= cv <= 1 -> 0 <= B ->
     (forall i, (i < n_agents h)%nat -> small_finite B (nth i ks (f0 FA))) ->
     (forall i, (i < n_agents h)%nat -> Rabs (value (nth i ys (f0 FA)) - (value (nth i xs (f0 FA)) + cv * value (nth i ks (f0 FA)))) <= 32 * u64 * M) ->
     forall i, (i < n_agents h)%nat -> Rabs (value (nth i ys (f0 FA) : float)) <= M + cv * B + M / 30).
  { intros ys ks cv B Hcv HB Hks E i Hi. specialize (E i Hi). destruct (X1 i Hi) as (_ & Bx). destruct (Hks i Hi) as (_ & Bk).
    match goal with |- Rabs ?z <= _ => replace z with (value (nth i xs (f0 FA)) + cv * value (nth i ks (f0 FA)) + (z - (value (nth i xs (f0 FA)) + cv * value (nth i ks (f0 FA))))) by ring end.
    apply Rabs_sum_le; [|eapply Rle_trans; [exact E|exact UM]]. apply Rabs_sum_le; [exact Bx|]. rewrite Rabs_mult, (Rabs_right cv) by lra. apply Rmult_le_compat_l; [lra|exact Bk]. }
  destruct (stage_all xs k2 (fmul FA (flit FA 1 2) (dt st)) (hh / 2) (16 / 10 * M) Lx L2 Hx Nh ltac:(lra) ltac:(lra) K2) as (FY3 & E3). fold y3 in FY3, E3.
  assert (Y3 : forall i, (i < n_agents h)%nat -> Rabs (value (nth i y3 (f0 FA) : float)) <= 184 / 100 * M).
  { intros i Hi. eapply Rle_trans; [apply (STG y3 k2 (hh / 2) (16 / 10 * M) ltac:(lra) ltac:(lra) K2 E3 i Hi)|]. assert (hh / 2 * (16 / 10 * M) <= 1 / 2 * (16 / 10 * M)) by (apply Rmult_le_compat_r; lra). lra. }
  assert (P3 : forall i, (i < n_agents h)%nat -> is_finite (nth i k3 (f0 FA) : float) = true /\ Rabs (value (nth i k3 (f0 FA) : float) + value (nth i y3 (f0 FA) : float)) <= M / 2).
  { intros i Hi. apply field_pull; auto. eapply Rle_trans; [apply (Y3 i Hi)|]. lra. }
  assert (K3 : forall i, (i < n_agents h)%nat -> small_finite (234 / 100 * M) (nth i k3 (f0 FA))).
  { intros i Hi. destruct (P3 i Hi) as (F1 & B1). split; [exact F1|]. eapply Rle_trans; [apply (SLP _ _ _ B1 (Y3 i Hi))|]. lra. }
  destruct (stage_all xs k3 (dt st) hh (234 / 100 * M) Lx L3 Hx N1 ltac:(lra) ltac:(lra) K3) as (FY4 & E4). fold y4 in FY4, E4.
  assert (Y4 : forall i, (i < n_agents h)%nat -> Rabs (value (nth i y4 (f0 FA) : float)) <= 338 / 100 * M).
  { intros i Hi. eapply Rle_trans; [apply (STG y4 k3 hh (234 / 100 * M) ltac:(lra) ltac:(lra) K3 E4 i Hi)|]. assert (hh * (234 / 100 * M) <= 1 * (234 / 100 * M)) by (apply Rmult_le_compat_r; lra). lra. }
  assert (P4 : forall i, (i < n_agents h)%nat -> is_finite (nth i k4 (f0 FA) : float) = true /\ Rabs (value (nth i k4 (f0 FA) : float) + value (nth i y4 (f0 FA) : float)) <= M / 2).
  { intros i Hi. apply field_pull; auto. eapply Rle_trans; [apply (Y4 i Hi)|]. lra. }
  (* the new opinion *)
  apply Forall_forall. intros z Hz. apply in_map_iff in Hz as (i & <- & Hi). apply in_seq in Hi. assert (Hi' : (i < n_agents h)%nat) by (rewrite <- Lx; exact (proj2 Hi)). clear Hi.
  destruct (X1 i Hi') as (Fx & Bx). destruct (K1 i Hi') as (F1 & B1). destruct (K2 i Hi') as (F2 & B2). destruct (K3 i Hi') as (F3 & B3). destruct (P4 i Hi') as (F4 & _).
  assert (B4 : Rabs (value (nth i k4 (f0 FA) : float)) <= 4 * M) by (eapply Rle_trans; [apply (SLP _ _ _ (proj2 (P4 i Hi')) (Y4 i Hi'))|]; lra).
  destruct (update_near (nth i xs (f0 FA)) (nth i k1 (f0 FA)) (nth i k2 (f0 FA)) (nth i k3 (f0 FA)) (nth i k4 (f0 FA)) (dt st) M Fx F1 F2 F3 F4 Fdt) as (Fz & Ez); try lra; try (eapply Rle_trans; [eassumption|lra]).
  { fold hh. lra. }
  split; [exact Fz|].
  assert (V8 : 32 * u64 * M <= M / 8) by lra.
  eapply (perturbed_step (value (nth i xs (f0 FA))) hh M _ _ _ _ (value (nth i y2 (f0 FA) : float)) (value (nth i y3 (f0 FA) : float)) (value (nth i y4 (f0 FA) : float)) _ (1000 * u64 * M) Hdt M0 Bx
    (proj2 (P1 i Hi')) (proj2 (P2 i Hi')) (proj2 (P3 i Hi')) (proj2 (P4 i Hi')));
   [eapply Rle_trans; [apply (E2 i Hi')|exact V8]|eapply Rle_trans; [apply (E3 i Hi')|exact V8]|eapply Rle_trans; [apply (E4 i Hi')|exact V8]|exact Ez|].
  apply Rmult_le_compat_r; [lra|]. unfold u64. replace (2 ^ 53) with (2 ^ 24 * 2 ^ 29) by (rewrite <- pow_add; reflexivity). assert (0 < 2 ^ 24) by (apply pow_lt; lra). assert (1000 <= 2 ^ 29) by (apply Rle_trans with (2 ^ 10); [cbn; lra|apply Rle_pow; [lra|lia]]).
  rewrite Rinv_mult. assert (0 < / 2 ^ 24) by (apply Rinv_0_lt_compat; lra). assert (1000 * / 2 ^ 29 <= 1). { apply Rmult_le_reg_r with (2 ^ 29); [lra|]. rewrite Rmult_assoc, Rinv_l by lra. lra. }
  replace (1000 * (/ 2 ^ 24 * / 2 ^ 29)) with (/ 2 ^ 24 * (1000 * / 2 ^ 29)) by ring. rewrite <- (Rmult_1_r (/ 2 ^ 24)) at 2. apply Rmult_le_compat_l; lra.
Qed.
End Step.
