(** Facts about the hyperbolic tangent, and the Taylor polynomial of exp(-h). *)
From Coq Require Import Reals Lra Psatz Lia.
From Verif Require Import Base Arith64 MNetwork SNetwork MAgents MActivity SRelax.
Local Open Scope R_scope.

Lemma cosh_pos x : 0 < cosh x.
Proof. unfold cosh. pose proof (exp_pos x). pose proof (exp_pos (- x)). lra. Qed.
Lemma tanh_abs_lt_1 x : Rabs (tanh x) < 1.
Proof.
  unfold tanh. pose proof (cosh_pos x) as H. unfold Rdiv. rewrite Rabs_mult, (Rabs_right (/ cosh x)) by (apply Rle_ge, Rlt_le, Rinv_0_lt_compat, H).
  apply Rmult_lt_reg_r with (cosh x); auto. rewrite Rmult_assoc, Rinv_l, Rmult_1_r, Rmult_1_l by lra.
  unfold sinh, cosh. pose proof (exp_pos x). pose proof (exp_pos (- x)). apply Rabs_def1; lra.
Qed.
Lemma tanh_odd x : tanh (- x) = - tanh x.
Proof. unfold tanh, sinh, cosh. rewrite Ropp_involutive. pose proof (exp_pos x). pose proof (exp_pos (- x)). field. lra. Qed.
Lemma tanh_0 : tanh 0 = 0.
Proof. unfold tanh. rewrite sinh_0. unfold Rdiv. ring. Qed.

(** tanh a - tanh b = tanh (a - b) (1 - tanh a tanh b) *)
Lemma tanh_minus a b : tanh a - tanh b = tanh (a - b) * (1 - tanh a * tanh b).
Proof.
  unfold tanh, sinh, cosh. 
  replace (exp (a - b)) with (exp a * exp (- b)) by (rewrite <- exp_plus; f_equal; ring).
  replace (exp (- (a - b))) with (exp (- a) * exp b) by (rewrite <- exp_plus; f_equal; ring).
  assert (Ha : exp (- a) = / exp a) by apply exp_Ropp. assert (Hb : exp (- b) = / exp b) by apply exp_Ropp. rewrite !Ha, !Hb.
  pose proof (exp_pos a) as P. pose proof (exp_pos b) as Q. set (u := exp a) in *. set (v := exp b) in *.
  assert (0 < u * u) by nra. assert (0 < v * v) by nra.
  field. repeat split; nra.
Qed.

Lemma tanh_ge x : 0 <= x -> x / (1 + x) <= tanh x.
Proof.
  intros Hx. unfold tanh, sinh, cosh. set (u := exp x). set (v := exp (- x)).
  assert (Hu : 0 < u) by apply exp_pos. assert (Hv : 0 < v) by apply exp_pos.
  assert (U : 1 + x <= u). { destruct (Req_dec x 0) as [->|]; [unfold u; rewrite exp_0; lra|]. left. apply exp_ineq1. exact H. }
  assert (UV : u * v = 1). { unfold u, v. rewrite <- exp_plus. replace (x + - x) with 0 by ring. apply exp_0. }
  assert (V : v * (1 + 2 * x) <= u).
  { assert (1 + 2 * x <= u * u) by nra. assert (v * (1 + 2 * x) <= v * (u * u)) by (apply Rmult_le_compat_l; lra). replace (v * (u * u)) with ((u * v) * u) in H0 by ring. rewrite UV in H0. lra. }
  apply Rmult_le_reg_r with ((1 + x) * ((u + v) / 2)); [nra|].
  replace (x / (1 + x) * ((1 + x) * ((u + v) / 2))) with (x * ((u + v) / 2)) by (field; lra).
  replace ((u - v) / 2 / ((u + v) / 2) * ((1 + x) * ((u + v) / 2))) with ((u - v) / 2 * (1 + x)) by (field; lra). nra.
Qed.
Lemma tanh_nonneg x : 0 <= x -> 0 <= tanh x.
Proof. intros H. eapply Rle_trans; [|apply tanh_ge, H]. apply Rmult_le_pos; [lra|]. apply Rlt_le, Rinv_0_lt_compat. lra. Qed.
Lemma tanh_pos x : 0 < x -> 0 < tanh x.
Proof. intros H. eapply Rlt_le_trans; [|apply tanh_ge; lra]. apply Rmult_lt_0_compat; [lra|]. apply Rinv_0_lt_compat. lra. Qed.

(** sinh x <= x cosh x: the difference has derivative x sinh x *)
Lemma tanh_le x : 0 <= x -> tanh x <= x.
Proof.
  intros Hx. destruct Hx as [Hx| <-]; [|rewrite tanh_0; lra].
  assert (D : forall t, derivable_pt_lim (fun t => t * cosh t - sinh t) t (t * sinh t)).
  { intros t. replace (t * sinh t) with ((1 * cosh t + t * sinh t) - cosh t) by ring.
    apply (derivable_pt_lim_minus (fun t => t * cosh t) sinh); [|apply derivable_pt_lim_sinh].
    apply (derivable_pt_lim_mult (fun t => t) cosh); [apply derivable_pt_lim_id|apply derivable_pt_lim_cosh]. }
  destruct (MVT_cor2 (fun t => t * cosh t - sinh t) (fun t => t * sinh t) 0 x Hx (fun c _ => D c)) as (c & E & Hc).
  cbv beta in E. rewrite sinh_0 in E.
  assert (S0 : 0 <= sinh c). { unfold sinh. pose proof (exp_increasing (- c) c ltac:(lra)). lra. }
  assert (H : sinh x <= x * cosh x). { assert (0 <= c * sinh c * (x - 0)) by (apply Rmult_le_pos; [apply Rmult_le_pos|]; lra). lra. }
  unfold tanh. pose proof (cosh_pos x) as P. apply Rmult_le_reg_r with (cosh x); auto. unfold Rdiv. rewrite Rmult_assoc, Rinv_l, Rmult_1_r by lra. exact H.
Qed.
Lemma tanh_abs_le x : Rabs (tanh x) <= Rabs x.
Proof.
  destruct (Rle_lt_dec 0 x) as [H|H].
  - rewrite (Rabs_right x), (Rabs_right (tanh x)); [apply tanh_le; auto|apply Rle_ge, tanh_nonneg, H|lra].
  - rewrite <- (Rabs_Ropp x), <- (Rabs_Ropp (tanh x)), <- tanh_odd. rewrite (Rabs_right (- x)), (Rabs_right (tanh (- x))); [apply tanh_le; lra|apply Rle_ge, tanh_nonneg; lra|lra].
Qed.
Lemma tanh_factor a b : 0 < 1 - tanh a * tanh b < 2.
Proof.
  pose proof (tanh_abs_lt_1 a) as A. pose proof (tanh_abs_lt_1 b) as B. apply Rabs_def2 in A, B. split; nra.
Qed.
Lemma tanh_increasing a b : a < b -> tanh a < tanh b.
Proof.
  intros H. pose proof (tanh_minus b a) as E. pose proof (tanh_factor b a) as [F _]. pose proof (tanh_pos (b - a) ltac:(lra)) as P.
  assert (0 < tanh (b - a) * (1 - tanh b * tanh a)) by (apply Rmult_lt_0_compat; auto). lra.
Qed.
Lemma tanh_monotone a b : a <= b -> tanh a <= tanh b.
Proof. intros [H| ->]; [left; now apply tanh_increasing|right; reflexivity]. Qed.
(** Lipschitz on half lines *)
Lemma tanh_lipschitz_from lo a b : 0 <= lo -> lo <= a -> lo <= b -> Rabs (tanh a - tanh b) <= (1 - tanh lo * tanh lo) * Rabs (a - b).
Proof.
  intros H Ha Hb. rewrite tanh_minus, Rabs_mult. pose proof (tanh_factor a b) as [F _]. rewrite (Rabs_right (1 - _)) by lra.
  pose proof (tanh_nonneg lo H). pose proof (tanh_monotone lo a Ha). pose proof (tanh_monotone lo b Hb).
  pose proof (tanh_abs_le (a - b)). pose proof (Rabs_pos (tanh (a - b))). rewrite Rmult_comm. apply Rmult_le_compat; try lra; nra.
Qed.
Lemma tanh_lipschitz a b : Rabs (tanh a - tanh b) <= Rabs (a - b).
Proof.
  assert (W : forall a b, a <= b -> tanh b - tanh a <= b - a).
  { clear. intros a b H. destruct (Rle_lt_dec 0 a) as [Ha|Ha].
    - pose proof (tanh_lipschitz_from 0 b a ltac:(lra) ltac:(lra) Ha) as L. rewrite tanh_0 in L. rewrite (Rabs_right (b - a)) in L by lra. pose proof (Rle_abs (tanh b - tanh a)). lra.
    - destruct (Rle_lt_dec 0 b) as [Hb|Hb].
      + pose proof (tanh_le b Hb). pose proof (tanh_le (- a) ltac:(lra)) as L. rewrite tanh_odd in L. lra.
      + pose proof (tanh_lipschitz_from 0 (- a) (- b) ltac:(lra) ltac:(lra) ltac:(lra)) as L. rewrite tanh_0, !tanh_odd in L. rewrite (Rabs_right (- a - - b)) in L by lra. pose proof (Rle_abs (- tanh a - - tanh b)). lra. }
  destruct (Rle_lt_dec a b) as [H|H].
  - rewrite Rabs_minus_sym, (Rabs_minus_sym a). rewrite !Rabs_right; [now apply W|lra|]. pose proof (tanh_monotone a b H). lra.
  - rewrite !Rabs_right; [apply W; lra|lra|]. pose proof (tanh_monotone b a ltac:(lra)). lra.
Qed.

(** ** The Taylor polynomial of exp(-h) *)
Lemma exp_alternating h : 0 <= h <= 1 -> decay h - h ^ 5 / 120 <= exp (- h) <= decay h.
Proof.
  intros H. set (U := fun n => h ^ n / INR (fact n)).
  assert (Dec : Un_decreasing U).
  { intros n. unfold U. cbn [pow fact]. assert (Hp : 0 <= h ^ n) by (apply pow_le; lra). pose proof (INR_fact_lt_0 n) as F.
    change (fact n + n * fact n)%nat with (S n * fact n)%nat. rewrite mult_INR. unfold Rdiv. rewrite Rinv_mult.
    assert (S1 : / INR (S n) <= 1). { rewrite <- Rinv_1. apply Rinv_le_contravar; [lra|]. rewrite S_INR. pose proof (pos_INR n). lra. }
    assert (S0 : 0 < / INR (S n)). { apply Rinv_0_lt_compat. rewrite S_INR. pose proof (pos_INR n). lra. }
    assert (F0 : 0 < / INR (fact n)) by (apply Rinv_0_lt_compat; auto).
    assert (A : h * / INR (S n) <= 1) by nra. assert (A0 : 0 <= h ^ n * / INR (fact n)) by (apply Rmult_le_pos; lra).
    replace (h * h ^ n * (/ INR (S n) * / INR (fact n))) with ((h * / INR (S n)) * (h ^ n * / INR (fact n))) by ring. nra. }
  assert (Cv : Un_cv U 0) by apply cv_speed_pow_fact.
  assert (Sum : Un_cv (fun N => sum_f_R0 (tg_alt U) N) (exp (- h))).
  { pose proof (proj2_sig (exist_exp (- h))) as E. change (proj1_sig (exist_exp (- h))) with (exp (- h)) in E. unfold exp_in, infinite_sum in E.
    intros eps He. destruct (E eps He) as (N & HN). exists N. intros n Hn. specialize (HN n Hn).
    rewrite (sum_eq (tg_alt U) (fun i => / INR (fact i) * (- h) ^ i)); [exact HN|]. intros i _. unfold tg_alt, U.
    replace (- h) with (-1 * h) by ring. rewrite Rpow_mult_distr. unfold Rdiv. ring. }
  destruct (alternated_series_ineq U (exp (- h)) 2 Dec Cv Sum) as [L1 L2]. unfold decay. revert L1 L2.
  change (S (2 * 2)) with 5%nat. change (2 * 2)%nat with 4%nat. unfold tg_alt, U. cbn [sum_f_R0 pow].
  change (fact 0) with 1%nat. change (fact 1) with 1%nat. change (fact 2) with 2%nat. change (fact 3) with 6%nat. change (fact 4) with 24%nat. change (fact 5) with 120%nat.
  rewrite !INR_IZR_INZ. cbn [Z.of_nat Pos.of_succ_nat Pos.succ]. intros L1 L2. lra.
Qed.

(** powers *)
Lemma pow_close a b k : 0 <= a <= 1 -> 0 <= b <= 1 -> Rabs (a ^ k - b ^ k) <= INR k * Rabs (a - b).
Proof.
  intros Ha Hb. induction k as [|k IH]; [cbn; rewrite Rminus_diag_eq, Rabs_R0 by reflexivity; lra|].
  rewrite S_INR. cbn [pow]. replace (a * a ^ k - b * b ^ k) with (a * (a ^ k - b ^ k) + (a - b) * b ^ k) by ring.
  eapply Rle_trans; [apply Rabs_triang|]. rewrite !Rabs_mult.
  assert (B : 0 <= b ^ k <= 1). { split; [apply pow_le; lra|]. rewrite <- (pow1 k). apply pow_incr. lra. }
  rewrite (Rabs_right a), (Rabs_right (b ^ k)) by lra. pose proof (Rabs_pos (a - b)). pose proof (Rabs_pos (a ^ k - b ^ k)). nra.
Qed.
Lemma exp_pow h k : exp (- h) ^ k = exp (- (INR k * h)).
Proof.
  induction k as [|k IH]; [cbn; rewrite Rmult_0_l, Ropp_0, exp_0; reflexivity|].
  cbn [pow]. rewrite IH, <- exp_plus, S_INR. f_equal. ring.
Qed.
