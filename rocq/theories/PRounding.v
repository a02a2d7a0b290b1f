(** Rounding errors of the binary64 operations. *)
From Coq Require Import Reals Lra Psatz.
From Flocq Require Import Core.Core Relative Plus_error IEEE754.BinarySingleNaN.
From Verif Require Import Base BaseFacts Arith64 RFacts PFloat SRounding.
Local Open Scope R_scope.

Notation float := Arith64.float.
#[local] Instance p53 : Prec_gt_0 53 := Hprec.
Lemma bpow_pos (n : nat) : bpow radix2 (Z.of_nat n) = 2 ^ n.
Proof. rewrite bpow_powerRZ. change (IZR radix2) with 2. now rewrite <- pow_powerRZ. Qed.
Lemma bpow_neg (n : nat) : bpow radix2 (- Z.of_nat n) = / 2 ^ n.
Proof. rewrite bpow_opp. now rewrite bpow_pos. Qed.
Lemma u64_pos : 0 < u64.
Proof. unfold u64. apply Rinv_0_lt_compat, pow_lt. lra. Qed.
Lemma eta64_pos : 0 < eta64.
Proof. unfold eta64. apply Rinv_0_lt_compat, pow_lt. lra. Qed.
Lemma big_pos : 0 < big.
Proof. unfold big. apply pow_lt. lra. Qed.
Lemma u64_small : u64 <= / 2 ^ 10.
Proof. unfold u64. apply Rinv_le_contravar; [apply pow_lt; lra|]. apply Rle_pow; [lra|]. lia. Qed.
Lemma u64_val : u_ro radix2 53 = u64.
Proof. unfold u_ro, u64. change (-(53) + 1)%Z with (- Z.of_nat 52)%Z. rewrite bpow_neg. replace (2 ^ 53) with (2 * 2 ^ 52) by ring. set (p := 2 ^ 52). assert (0 < p) by (apply pow_lt; lra). field. lra. Qed.
Lemma eta64_val : / 2 * bpow radix2 emin64 = eta64.
Proof.
  unfold eta64. change emin64 with (- Z.of_nat 1074)%Z. rewrite bpow_neg. change (2 ^ 1075) with (2 * 2 ^ 1074). rewrite Rinv_mult. reflexivity.
Qed.

Lemma rnd_mult_err x : Rabs (rnd x - x) <= u64 * Rabs x + eta64.
Proof.
  destruct (relative_error_N_FLT'_ex radix2 emin64 53 ltac:(reflexivity) (fun t => negb (Z.even t)) x) as (e & h & He & Hh & _ & E).
  change (FLT_exp emin64 53) with fexp64 in E. rewrite E. rewrite u64_val in He. rewrite eta64_val in Hh.
  replace (x * (1 + e) + h - x) with (x * e + h) by ring. eapply Rle_trans; [apply Rabs_triang|]. rewrite Rabs_mult.
  assert (u64 / (1 + u64) <= u64). { pose proof u64_pos. apply Rmult_le_reg_r with (1 + u64); [lra|]. unfold Rdiv. rewrite Rmult_assoc, Rinv_l by lra. nra. }
  pose proof (Rabs_pos x). pose proof (Rabs_pos e). nra.
Qed.
Lemma rnd_plus_err x y : fmt x -> fmt y -> Rabs (rnd (x + y) - (x + y)) <= u64 * Rabs (x + y).
Proof.
  intros Hx Hy. destruct (FLT_plus_error_N_ex radix2 emin64 53 (fun t => negb (Z.even t)) x y Hx Hy) as (e & He & E).
  change (FLT_exp emin64 53) with fexp64 in E. rewrite E. rewrite u64_val in He.
  replace ((x + y) * (1 + e) - (x + y)) with (e * (x + y)) by ring. rewrite Rabs_mult.
  assert (u64 / (1 + u64) <= u64). { pose proof u64_pos. apply Rmult_le_reg_r with (1 + u64); [lra|]. unfold Rdiv. rewrite Rmult_assoc, Rinv_l by lra. nra. }
  pose proof (Rabs_pos (x + y)). nra.
Qed.

Lemma big_below : 4 * big <= bpow radix2 emax.
Proof. change emax with (Z.of_nat 1024). rewrite bpow_pos. unfold big. replace (2 ^ 1024) with (2 ^ 24 * 2 ^ 1000) by (rewrite <- pow_add; reflexivity). assert (0 < 2 ^ 1000) by (apply pow_lt; lra). assert (4 <= 2 ^ 24) by (cbn; lra). nra. Qed.
Lemma rnd_small x : Rabs x <= big -> Rlt_bool (Rabs (rnd x)) (bpow radix2 emax) = true.
Proof.
  intros H. apply Rlt_bool_true. pose proof (rnd_mult_err x) as E. pose proof big_below. pose proof big_pos. pose proof u64_small as U. pose proof u64_pos.
  assert (Rabs (rnd x) <= Rabs x + (u64 * Rabs x + eta64)). { replace (rnd x) with (x + (rnd x - x)) by ring. eapply Rle_trans; [apply Rabs_triang|]. lra. }
  assert (eta64 <= 1). { unfold eta64. rewrite <- Rinv_1. apply Rinv_le_contravar; [lra|]. apply pow_R1_Rle. lra. }
  assert (1 <= big) by (unfold big; apply pow_R1_Rle; lra). assert (/ 2 ^ 10 <= 1). { rewrite <- Rinv_1. apply Rinv_le_contravar; [lra|]. apply pow_R1_Rle. lra. }
  pose proof (Rabs_pos x). nra.
Qed.

(** The operations on finite doubles whose result is at most 2^1000. *)
Lemma fadd_err (x y : float) : is_finite x = true -> is_finite y = true -> Rabs (B2R x + B2R y) <= big ->
  is_finite (fadd FA x y : float) = true /\ Rabs (B2R (fadd FA x y : float) - (B2R x + B2R y)) <= u64 * Rabs (B2R x + B2R y).
Proof.
  intros Fx Fy H. cbn [fadd FA]. pose proof (Bplus_correct prec emax Hprec Hprec_emax mode_NE x y Fx Fy) as C. cbn [round_mode] in C.
  rewrite (rnd_small _ H) in C. destruct C as (E & F & _). split; [exact F|]. rewrite E. apply rnd_plus_err; apply fmt_B2R.
Qed.
Lemma fsub_err (x y : float) : is_finite x = true -> is_finite y = true -> Rabs (B2R x - B2R y) <= big ->
  is_finite (fsub FA x y : float) = true /\ Rabs (B2R (fsub FA x y : float) - (B2R x - B2R y)) <= u64 * Rabs (B2R x - B2R y).
Proof.
  intros Fx Fy H. cbn [fsub FA]. pose proof (Bminus_correct prec emax Hprec Hprec_emax mode_NE x y Fx Fy) as C. cbn [round_mode] in C.
  rewrite (rnd_small _ H) in C. destruct C as (E & F & _). split; [exact F|]. rewrite E. apply rnd_plus_err; [|apply generic_format_opp]; apply fmt_B2R.
Qed.
Lemma fmul_err (x y : float) : is_finite x = true -> is_finite y = true -> Rabs (B2R x * B2R y) <= big ->
  is_finite (fmul FA x y : float) = true /\ Rabs (B2R (fmul FA x y : float) - B2R x * B2R y) <= u64 * Rabs (B2R x * B2R y) + eta64.
Proof.
  intros Fx Fy H. cbn [fmul FA]. pose proof (Bmult_correct prec emax Hprec Hprec_emax mode_NE x y) as C. cbn [round_mode] in C.
  rewrite (rnd_small _ H) in C. destruct C as (E & F & _). rewrite Fx, Fy in F. split; [exact F|]. rewrite E. apply rnd_mult_err.
Qed.
Lemma fdiv_err (x y : float) : is_finite x = true -> B2R y <> 0 -> Rabs (B2R x / B2R y) <= big ->
  is_finite (fdiv FA x y : float) = true /\ Rabs (B2R (fdiv FA x y : float) - B2R x / B2R y) <= u64 * Rabs (B2R x / B2R y) + eta64.
Proof.
  intros Fx Fy H. cbn [fdiv FA]. pose proof (Bdiv_correct prec emax Hprec Hprec_emax mode_NE x y Fy) as C. cbn [round_mode] in C.
  rewrite (rnd_small _ H) in C. destruct C as (E & F & _). rewrite Fx in F. split; [exact F|]. rewrite E. apply rnd_mult_err.
Qed.
Lemma fopp_exact (x : float) : B2R (fopp FA x : float) = - B2R x /\ is_finite (fopp FA x : float) = is_finite x.
Proof. cbn [fopp FA]. split; [apply B2R_Bopp|apply is_finite_Bopp]. Qed.
