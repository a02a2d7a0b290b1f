(** Facts about binary64 arithmetic (Flocq): an encounter with mu <= 1/2 stays in the pair's hull, and
    the truncated square root of a perfect square is its root. *)
From Verif Require Import Base BaseFacts Arith64 MDeffuant.
From Coq Require Import Reals Lra Psatz.
From Flocq Require Import IEEE754.BinarySingleNaN Core.Core.
Local Open Scope R_scope.

Notation emin64 := (3 - emax - prec)%Z.
Notation fexp64 := (SpecFloat.fexp prec emax).
Notation rnd := (round radix2 fexp64 ZnearestE).
Notation fmt := (generic_format radix2 fexp64).
#[local] Instance vexp : Valid_exp fexp64 := fexp_correct prec emax Hprec.
#[local] Instance mexp : Monotone_exp fexp64 := fexp_monotone prec emax.

Lemma fmt_B2R (x : Arith64.float) : fmt (B2R x).
Proof. apply generic_format_B2R. Qed.

Lemma emin_fmt : fmt (bpow radix2 emin64).
Proof. apply generic_format_bpow. unfold SpecFloat.fexp, SpecFloat.emin, emax, prec. lia. Qed.

Lemma fmt_multiple x : fmt x -> exists m : Z, x = IZR m * bpow radix2 emin64.
Proof.
  intros H. assert (H' : FIX_format radix2 emin64 x).
  { apply FIX_format_generic. eapply generic_inclusion_mag; [|exact H].
    intros _. unfold FIX_exp, SpecFloat.fexp, SpecFloat.emin. lia. }
  destruct H' as [f Hf Ef]. exists (Fnum f). rewrite Hf. unfold F2R. now rewrite Ef.
Qed.

Lemma diff_lower x y : fmt x -> fmt y -> y < x -> bpow radix2 emin64 <= x - y.
Proof.
  intros Hx Hy Hlt. destruct (fmt_multiple x Hx) as (m & Em). destruct (fmt_multiple y Hy) as (n & En).
  pose proof (bpow_gt_0 radix2 emin64) as Hb. rewrite Em, En in *. set (b := bpow radix2 emin64) in *.
  assert (n < m)%Z. { apply lt_IZR. apply Rmult_lt_reg_r with b; auto. }
  assert (IZR (n + 1) <= IZR m) by (apply IZR_le; lia). rewrite plus_IZR in H0. nra.
Qed.

(** Half of the rounded difference, rounded, is at most the exact difference. *)
Lemma half_step x y : fmt x -> fmt y -> y <= x -> rnd (rnd (x - y) / 2) <= x - y.
Proof.
  intros Hx Hy Hle. destruct (Rle_lt_or_eq_dec _ _ Hle) as [Hlt|He].
  2: { subst y. replace (x - x) with 0 by lra. rewrite round_0; auto with typeclass_instances.
       replace (0 / 2) with 0 by lra. rewrite round_0; auto with typeclass_instances. lra. }
  pose proof (diff_lower x y Hx Hy Hlt) as Hd. set (d := x - y) in *.
  assert (Hd0 : 0 < d) by (unfold d; lra).
  set (f := round radix2 fexp64 Zfloor d).
  assert (Ff : fmt f) by (apply generic_format_round; auto with typeclass_instances).
  assert (Hf : f <= d) by (apply round_DN_pt; auto with typeclass_instances).
  assert (Hf0 : bpow radix2 emin64 <= f).
  { apply round_ge_generic; auto with typeclass_instances. apply emin_fmt. }
  pose proof (bpow_gt_0 radix2 emin64) as Hb.
  assert (H2 : rnd d <= 2 * f).
  { destruct (generic_format_EM radix2 fexp64 d) as [Fd|Nd].
    - rewrite round_generic; auto with typeclass_instances.
      assert (f = d) by (apply round_generic; auto with typeclass_instances). lra.
    - assert (R1 : rnd d <= round radix2 fexp64 Zceil d).
      { apply round_le_generic; auto with typeclass_instances.
        - apply generic_format_round; auto with typeclass_instances.
        - apply round_UP_pt; auto with typeclass_instances. }
      rewrite round_UP_DN_ulp in R1 by auto. fold f in R1.
      assert (U : ulp radix2 fexp64 d = ulp radix2 fexp64 f) by (symmetry; apply ulp_DN; auto with typeclass_instances; lra).
      rewrite U in R1. pose proof (ulp_le_id radix2 fexp64 f ltac:(lra) Ff). lra. }
  apply Rle_trans with f; auto. apply round_le_generic; auto with typeclass_instances. lra.
Qed.

Lemma step_bound x y mu : fmt x -> fmt y -> y <= x -> 0 <= mu <= 1/2 ->
  0 <= rnd (mu * rnd (x - y)) <= x - y.
Proof.
  intros Hx Hy Hle Hmu.
  assert (D : 0 <= rnd (x - y)).
  { rewrite <- (round_0 radix2 fexp64 ZnearestE). apply round_le; auto with typeclass_instances. lra. }
  split.
  - rewrite <- (round_0 radix2 fexp64 ZnearestE). apply round_le; auto with typeclass_instances. nra.
  - eapply Rle_trans; [|apply half_step; eauto]. apply round_le; auto with typeclass_instances. nra.
Qed.

Lemma moves_in x y v : fmt x -> fmt y -> 0 <= v <= x - y -> y <= rnd (x - v) <= x /\ y <= rnd (y + v) <= x.
Proof.
  intros Hx Hy Hv. repeat split.
  - apply round_ge_generic; auto with typeclass_instances. lra.
  - apply round_le_generic; auto with typeclass_instances. lra.
  - apply round_ge_generic; auto with typeclass_instances. lra.
  - apply round_le_generic; auto with typeclass_instances. lra.
Qed.

Lemma rnd_opp x : rnd (- x) = - rnd x.
Proof. apply round_NE_opp. Qed.

Lemma hull_real x y mu : fmt x -> fmt y -> 0 <= mu <= 1/2 ->
  let v := rnd (mu * rnd (x - y)) in
  Rmin x y <= rnd (x - v) <= Rmax x y /\ Rmin x y <= rnd (y + v) <= Rmax x y.
Proof.
  intros Hx Hy Hmu v. destruct (Rle_lt_dec y x) as [H|H].
  - rewrite Rmin_right, Rmax_left by auto. apply moves_in; auto. apply step_bound; auto.
  - rewrite Rmin_left, Rmax_right by lra.
    assert (E : v = - rnd (mu * rnd (y - x))).
    { unfold v. replace (x - y) with (- (y - x)) by lra. rewrite rnd_opp.
      replace (mu * - rnd (y - x)) with (- (mu * rnd (y - x))) by lra. apply rnd_opp. }
    pose proof (moves_in y x (rnd (mu * rnd (y - x))) Hy Hx (step_bound y x mu Hy Hx ltac:(lra) Hmu)) as [M1 M2].
    rewrite E. replace (x - - rnd (mu * rnd (y - x))) with (x + rnd (mu * rnd (y - x))) by lra.
    replace (y + - rnd (mu * rnd (y - x))) with (y - rnd (mu * rnd (y - x))) by lra. auto.
Qed.

Lemma between_small (x y z : Arith64.float) r : is_finite x = true -> is_finite y = true ->
  Rmin (B2R x) (B2R y) <= r <= Rmax (B2R x) (B2R y) -> Rlt_bool (Rabs r) (bpow radix2 emax) = true.
Proof.
  intros Fx Fy Hr. apply Rlt_bool_true.
  pose proof (abs_B2R_lt_emax _ _ x) as Bx. pose proof (abs_B2R_lt_emax _ _ y) as By.
  apply Rabs_def2 in Bx. apply Rabs_def2 in By. apply Rabs_def1.
  - eapply Rle_lt_trans; [apply Hr|]. apply Rmax_lub_lt; lra.
  - eapply Rlt_le_trans; [|apply Hr]. apply Rmin_glb_lt; lra.
Qed.

(** One step of the update rule on doubles. *)
Lemma hull_float (x y m thr : Arith64.float) :
  is_finite x = true -> is_finite y = true -> is_finite m = true -> 0 <= B2R m <= 1/2 ->
  flt FA (fabs FA (fsub FA x y)) thr = true ->
  let v := fmul FA m (fsub FA x y) in
  is_finite (fsub FA x v) = true /\ is_finite (fadd FA y v) = true /\
  Rmin (B2R x) (B2R y) <= B2R (fsub FA x v) <= Rmax (B2R x) (B2R y) /\
  Rmin (B2R x) (B2R y) <= B2R (fadd FA y v) <= Rmax (B2R x) (B2R y).
Proof.
  intros Fx Fy Fm Hm Ht v. cbn [flt fabs fsub fmul fadd FA] in *.
  pose proof (Bminus_correct prec emax Hprec Hprec_emax mode_NE x y Fx Fy) as C1. cbn [round_mode] in C1.
  set (d := Bminus mode_NE x y) in *.
  destruct (Rlt_bool_spec (Rabs (rnd (B2R x - B2R y))) (bpow radix2 emax)) as [Hlt|Hge].
  2: { exfalso. destruct C1 as [C1 _]. destruct d as [sd|sd| |sd md ed Hd]; cbn in C1; try discriminate.
       destruct sd; cbn in Ht; destruct thr as [st|st| |st mt et Ht']; try destruct st; discriminate. }
  destruct C1 as (Ed & Fd & _).
  pose proof (Bmult_correct prec emax Hprec Hprec_emax mode_NE m d) as C2. cbn [round_mode] in C2.
  assert (HD : Rabs (B2R m * B2R d) <= Rabs (B2R d)).
  { rewrite Rabs_mult, (Rabs_pos_eq (B2R m)) by lra. pose proof (Rabs_pos (B2R d)). nra. }
  assert (HR : Rabs (rnd (B2R m * B2R d)) <= Rabs (B2R d)).
  { apply abs_round_le_generic; auto with typeclass_instances. apply generic_format_abs. apply fmt_B2R. }
  rewrite Rlt_bool_true in C2.
  2: { eapply Rle_lt_trans; [exact HR|]. apply abs_B2R_lt_emax. }
  destruct C2 as (Ev & Fv & _). rewrite Fm, Fd in Fv. cbn in Fv.
  fold v in Ev, Fv. rewrite Ed in Ev.
  destruct (hull_real (B2R x) (B2R y) (B2R m) (fmt_B2R x) (fmt_B2R y) Hm) as [H1 H2]. rewrite <- Ev in H1, H2.
  pose proof (Bminus_correct prec emax Hprec Hprec_emax mode_NE x v Fx Fv) as C3. cbn [round_mode] in C3.
  rewrite (between_small x y x _ Fx Fy H1) in C3. destruct C3 as (E3 & F3 & _).
  pose proof (Bplus_correct prec emax Hprec Hprec_emax mode_NE y v Fy Fv) as C4. cbn [round_mode] in C4.
  rewrite (between_small x y x _ Fx Fy H2) in C4. destruct C4 as (E4 & F4 & _).
  rewrite E3, E4. auto.
Qed.

(** The aliased case: an agent that meets itself keeps its opinion. *)
Lemma self_float (x m thr : Arith64.float) : is_finite x = true -> is_finite m = true ->
  let v := fmul FA m (fsub FA x x) in
  is_finite (fadd FA (fsub FA x v) v) = true /\ B2R (fadd FA (fsub FA x v) v) = B2R x.
Proof.
  intros Fx Fm v. cbn [flt fabs fsub fmul fadd FA] in *.
  pose proof (Bminus_correct prec emax Hprec Hprec_emax mode_NE x x Fx Fx) as C1. cbn [round_mode] in C1.
  replace (B2R x - B2R x) with 0 in C1 by lra. rewrite round_0 in C1; auto with typeclass_instances. rewrite Rabs_R0 in C1.
  rewrite Rlt_bool_true in C1 by apply bpow_gt_0. destruct C1 as (Ed & Fd & _). set (d := Bminus mode_NE x x) in *.
  pose proof (Bmult_correct prec emax Hprec Hprec_emax mode_NE m d) as C2. cbn [round_mode] in C2.
  rewrite Ed, Rmult_0_r, round_0, Rabs_R0 in C2; auto with typeclass_instances.
  rewrite Rlt_bool_true in C2 by apply bpow_gt_0. destruct C2 as (Ev & Fv & _). rewrite Fm, Fd in Fv. cbn in Fv.
  fold v in Ev, Fv.
  pose proof (Bminus_correct prec emax Hprec Hprec_emax mode_NE x v Fx Fv) as C3. cbn [round_mode] in C3.
  rewrite Ev, Rminus_0_r in C3. rewrite round_generic in C3; auto using fmt_B2R with typeclass_instances.
  rewrite Rlt_bool_true in C3 by apply abs_B2R_lt_emax. destruct C3 as (E3 & F3 & _).
  pose proof (Bplus_correct prec emax Hprec Hprec_emax mode_NE (Bminus mode_NE x v) v F3 Fv) as C4. cbn [round_mode] in C4.
  rewrite Ev, E3, Rplus_0_r in C4. rewrite round_generic in C4; auto using fmt_B2R with typeclass_instances.
  rewrite Rlt_bool_true in C4 by apply abs_B2R_lt_emax. destruct C4 as (E4 & F4 & _). auto.
Qed.

(** ** size_t(std::sqrt(n)) *)
Lemma fmt_small_int z : (Z.abs z <= 2 ^ 53)%Z -> fmt (IZR z).
Proof.
  intros H. destruct (Z.eq_dec (Z.abs z) (2 ^ 53)) as [E|N].
  - destruct (Z.abs_eq_or_opp z) as [E'|E']; rewrite E' in E.
    + rewrite E. change (IZR (2 ^ 53)) with (bpow radix2 53). apply generic_format_bpow. cbn. lia.
    + replace z with (- (2 ^ 53))%Z by lia. rewrite opp_IZR. apply generic_format_opp.
      change (IZR (2 ^ 53)) with (bpow radix2 53). apply generic_format_bpow. cbn. lia.
  - replace (IZR z) with (F2R (Float radix2 z 0)) by (unfold F2R; cbn; lra).
    destruct (Z.eq_dec z 0) as [->|Nz]; [rewrite F2R_0; apply generic_format_0|].
    apply generic_format_F2R. intros _. cbn [Fnum Fexp].
    unfold cexp, SpecFloat.fexp, SpecFloat.emin, prec, emax.
    assert (mag radix2 (F2R (Float radix2 z 0)) <= 53)%Z.
    { apply mag_le_bpow; [now apply F2R_neq_0|]. unfold F2R; cbn [Fnum Fexp]. cbn [bpow]. rewrite Rmult_1_r, <- abs_IZR.
      change (Z.pow_pos radix2 53) with (2 ^ 53)%Z. apply IZR_lt. lia. }
    lia.
Qed.

Lemma b64_exact z : (0 <= z <= 2 ^ 53)%Z -> B2R (b64_of_Z z) = IZR z /\ is_finite (b64_of_Z z) = true /\ Bsign (b64_of_Z z) = false.
Proof.
  intros H. unfold b64_of_Z.
  pose proof (binary_normalize_correct prec emax Hprec Hprec_emax mode_NE z 0 false) as C. cbn zeta in C.
  replace (F2R (Float radix2 z 0)) with (IZR z) in C by (unfold F2R; cbn; lra). cbn [round_mode] in C.
  rewrite round_generic in C; auto with typeclass_instances; [|apply fmt_small_int; lia].
  rewrite Rlt_bool_true in C.
  - destruct C as (C1 & C2 & C3). split; auto. split; auto. rewrite C3. destruct (Rcompare_spec (IZR z) 0) as [Hlt|He|Hgt]; auto.
    apply lt_IZR in Hlt. lia.
  - rewrite <- abs_IZR, Z.abs_eq by lia. apply Rle_lt_trans with (bpow radix2 53).
    + change (bpow radix2 53) with (IZR (2 ^ 53)). apply IZR_le. lia.
    + apply bpow_lt. reflexivity.
Qed.

Lemma sqrt_float n : (0 <= n <= 2 ^ 53)%Z ->
  B2R (@Bsqrt prec emax Hprec Hprec_emax mode_NE (b64_of_Z n)) = rnd (sqrt (IZR n)).
Proof.
  intros H. destruct (b64_exact n H) as (E & _ & _).
  destruct (Bsqrt_correct prec emax Hprec Hprec_emax mode_NE (b64_of_Z n)) as (C & _). rewrite C, E. reflexivity.
Qed.

Lemma sqrt_size_spec n : (Z.of_nat n <= 2 ^ 53)%Z ->
  sqrt_size n = Z.to_nat (Ztrunc (rnd (sqrt (IZR (Z.of_nat n))))).
Proof.
  intros H. unfold sqrt_size. f_equal. apply eq_IZR. rewrite Btrunc_correct by reflexivity. rewrite sqrt_float by lia.
  unfold round, F2R, scaled_mantissa, cexp, FIX_exp. cbn. now rewrite !Rmult_1_r.
Qed.

Lemma sqrt_size_square k : (Z.of_nat k * Z.of_nat k <= 2 ^ 53)%Z -> sqrt_size (k * k) = k.
Proof.
  intros H. rewrite sqrt_size_spec by lia. rewrite Nat2Z.inj_mul, mult_IZR.
  rewrite sqrt_square by (apply IZR_le; lia).
  rewrite round_generic; auto with typeclass_instances; [|apply fmt_small_int; nia].
  rewrite Ztrunc_IZR. apply Nat2Z.id.
Qed.

Lemma sqrt_size_bound n : (Z.of_nat n <= 2 ^ 53)%Z -> (Z.of_nat (sqrt_size n) <= 2 ^ 27)%Z.
Proof.
  intros H. rewrite sqrt_size_spec by auto.
  assert (B : rnd (sqrt (IZR (Z.of_nat n))) <= IZR (2 ^ 27)).
  { apply round_le_generic; auto with typeclass_instances; [apply fmt_small_int; lia|].
    rewrite <- (sqrt_square (IZR (2 ^ 27))) by (apply IZR_le; lia). apply sqrt_le_1_alt. rewrite <- mult_IZR. apply IZR_le. lia. }
  assert (P : 0 <= rnd (sqrt (IZR (Z.of_nat n)))).
  { rewrite <- (round_0 radix2 fexp64 ZnearestE). apply round_le; auto with typeclass_instances. apply sqrt_pos. }
  assert (0 <= Ztrunc (rnd (sqrt (IZR (Z.of_nat n)))) <= 2 ^ 27)%Z.
  { split; [rewrite <- (Ztrunc_IZR 0); now apply Ztrunc_le|]. rewrite <- (Ztrunc_IZR (2 ^ 27)). now apply Ztrunc_le. }
  lia.
Qed.
