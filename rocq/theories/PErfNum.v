(** Certified numerical bounds used by the accuracy theorem for erfinv. *)
From Coq Require Import ZArith List Bool Lia QArith Qreals Qpower.
From Coq Require Import Reals Lra Psatz Machin.
From Coquelicot Require Import Coquelicot.
From Verif Require Import PPoly.
Local Open Scope R_scope.

Lemma Qle_sound x y : Qle_bool x y = true -> Q2R x <= Q2R y.
Proof. intros H. apply Qle_Rle, Qle_bool_iff, H. Qed.
Lemma Q2R_frac n d : Q2R (n # d) = IZR n / IZR (Zpos d).
Proof. reflexivity. Qed.
Lemma Q2R_pow q n : Q2R (Qpower_positive q n) = Q2R q ^ Pos.to_nat n.
Proof.
  assert (H1 : Q2R (Qpower_positive q 1) = Q2R q) by reflexivity.
  induction n using Pos.peano_ind; [rewrite H1; change (Pos.to_nat 1) with 1%nat; ring|].
  rewrite Pos2Nat.inj_succ. cbn [pow]. rewrite <- IHn, <- Q2R_mult. apply Qeq_eqR.
  rewrite <- Pos.add_1_l, Qpower_plus_positive. reflexivity.
Qed.

(** Evaluation of polynomials at rationals. *)
Definition qeval (p : list Z) (q : Q) : Q := fold_right (fun c r => Qred (inject_Z c + q * r)%Q) 0%Q p.
Lemma qeval_sound p q : Q2R (qeval p q) = peval p (Q2R q).
Proof.
  induction p as [|c p IH]; [unfold Q2R; cbn; lra|]. cbn [qeval fold_right peval]. rewrite (Qeq_eqR _ _ (Qred_correct _)).
  rewrite Q2R_plus, Q2R_mult. fold (qeval p q). rewrite IH. f_equal. unfold inject_Z, Q2R; cbn. lra.
Qed.

(** ** exp *)
Fixpoint esum (n : nat) (x : R) : R := match n with O => 0 | S n => esum n x + x ^ n / INR (fact n) end.
Lemma esum_0 n : esum (S n) 0 = 1.
Proof. induction n as [|n IH]; [cbn; field|]. cbn [esum] in *. rewrite IH. cbn [pow]. unfold Rdiv. ring. Qed.
Lemma term_derive n x : is_derive (fun y => y ^ (S n) / INR (fact (S n))) x (x ^ n / INR (fact n)).
Proof.
  apply (is_derive_ext (fun y => / INR (fact (S n)) * y ^ (S n))); [intros; unfold Rdiv; apply Rmult_comm|].
  evar_last.
  - apply (is_derive_scal (fun y => y ^ (S n)) x (/ INR (fact (S n)))). apply (is_derive_pow (fun y : R => y) (S n) x 1). exact (is_derive_id x).
  - pose proof (INR_fact_neq_0 n). change (fact (S n)) with (S n * fact n)%nat. rewrite mult_INR.
    assert (INR (S n) <> 0) by (apply not_0_INR; lia). change (Nat.pred (S n)) with n. field. split; auto.
Qed.
Lemma esum_derive n x : is_derive (esum (S n)) x (esum n x).
Proof.
  induction n as [|n IH].
  - cbn. auto_derive; [auto|]. unfold Rdiv; ring.
  - change (is_derive (fun y => esum (S n) y + y ^ (S n) / INR (fact (S n))) x (esum n x + x ^ n / INR (fact n))).
    apply (is_derive_plus (esum (S n)) (fun y => y ^ (S n) / INR (fact (S n)))); [exact IH|].
    apply term_derive.
Qed.
Lemma incr_from_0 (f d : R -> R) b x : (forall y, 0 <= y <= b -> is_derive f y (d y)) -> (forall y, 0 <= y <= b -> 0 <= d y) ->
  0 <= x <= b -> f 0 <= f x.
Proof.
  intros Hd Hp [[H|<-] Hb]; [|lra]. destruct (MVT_cor2 f d 0 x H) as (c & E & Hc).
  - intros y Hy. apply is_derive_Reals, Hd. lra.
  - specialize (Hp c ltac:(lra)). nra.
Qed.
Lemma exp_lower n x : 0 <= x -> esum n x <= exp x.
Proof.
  revert x; induction n as [|n IH]; intros x Hx; [left; apply exp_pos|].
  assert (H : exp 0 - esum (S n) 0 <= exp x - esum (S n) x).
  { apply (incr_from_0 (fun y => exp y - esum (S n) y) (fun y => exp y - esum n y) x); [| |lra].
    - intros y _. apply (is_derive_minus exp (esum (S n))); [apply is_derive_Reals, derivable_pt_lim_exp|apply esum_derive].
    - intros y Hy. specialize (IH y ltac:(lra)). lra. }
  rewrite esum_0, exp_0 in H. lra.
Qed.
Lemma exp_upper n x : 0 <= x <= 1 -> exp x <= esum n x + 3 * (x ^ n / INR (fact n)).
Proof.
  revert x; induction n as [|n IH]; intros x Hx.
  - cbn. apply Rle_trans with (exp 1); [destruct (Req_dec x 1) as [->|]; [lra|left; apply exp_increasing; lra]|]. pose proof exp_le_3. lra.
  - pose (f := fun y => esum (S n) y + 3 * (y ^ (S n) / INR (fact (S n))) - exp y).
    assert (H : f 0 <= f x).
    { apply (incr_from_0 f (fun y => esum n y + 3 * (y ^ n / INR (fact n)) - exp y) 1); [| |lra].
      - intros y _. unfold f.
        apply (is_derive_minus (fun y => esum (S n) y + 3 * (y ^ (S n) / INR (fact (S n)))) exp); [|apply is_derive_Reals, derivable_pt_lim_exp].
        apply (is_derive_plus (esum (S n)) (fun y => 3 * (y ^ (S n) / INR (fact (S n))))); [apply esum_derive|].
        apply (is_derive_scal (fun y => y ^ (S n) / INR (fact (S n))) y 3), term_derive.
      - intros y Hy. specialize (IH y Hy). lra. }
    unfold f in H. rewrite esum_0, exp_0 in H.
    replace (3 * (0 ^ S n / INR (fact (S n)))) with 0 in H by (unfold Rdiv; cbn [pow]; ring). lra.
Qed.

(** Horner form with integers: numerator and denominator of sum_{i<n} x^i k!/(k+i)! + c x^n k!/(k+n)!, x = p/q. *)
Fixpoint ehorn (c : Z) (n : nat) (k : Z) (p q : Z) : Z * Z :=
  match n with
  | O => (c, 1%Z)
  | S n => let (N, D) := ehorn c n (k + 1) p q in let E := (q * (k + 1) * D)%Z in ((E + p * N)%Z, E)
  end.
Lemma ehorn_sound c n k p q x : (0 < q)%Z -> x = IZR p / IZR q ->
  (0 < snd (ehorn c n (Z.of_nat k) p q))%Z /\
  x ^ k / INR (fact k) * (IZR (fst (ehorn c n (Z.of_nat k) p q)) / IZR (snd (ehorn c n (Z.of_nat k) p q)))
   = esum (k + n) x - esum k x + IZR c * (x ^ (k + n) / INR (fact (k + n))).
Proof.
  intros Hq Ex. revert k; induction n as [|n IH]; intros k.
  - cbn [ehorn fst snd]. rewrite Nat.add_0_r. split; [lia|]. unfold Rdiv. rewrite Rinv_1. ring.
  - cbn [ehorn]. specialize (IH (S k)). replace (Z.of_nat k + 1)%Z with (Z.of_nat (S k)) by lia.
    destruct (ehorn c n (Z.of_nat (S k)) p q) as [N D]. cbn [fst snd] in *. destruct IH as [HD IH]. split; [nia|].
    replace (k + S n)%nat with (S k + n)%nat by lia.
    replace (esum (S k + n) x - esum k x) with (esum (S k + n) x - esum (S k) x + x ^ k / INR (fact k)) by (cbn [esum]; ring).
    rewrite (Rplus_assoc _ (x ^ k / _)), (Rplus_comm (x ^ k / _)), <- Rplus_assoc, <- IH.
    apply IZR_lt in Hq. apply IZR_lt in HD. rewrite plus_IZR, !mult_IZR.
    change (fact (S k)) with (S k * fact k)%nat. rewrite mult_INR, <- INR_IZR_INZ. cbn [pow]. generalize (x ^ k). intros X. rewrite Ex.
    assert (INR (S k) <> 0) by (apply not_0_INR; lia). pose proof (INR_fact_neq_0 k). field. repeat split; auto; lra.
Qed.
Lemma ehorn_0 c n p q : (0 < q)%Z ->
  (0 < snd (ehorn c n 0 p q))%Z /\
  IZR (fst (ehorn c n 0 p q)) / IZR (snd (ehorn c n 0 p q)) = esum n (IZR p / IZR q) + IZR c * ((IZR p / IZR q) ^ n / INR (fact n)).
Proof.
  intros Hq. destruct (ehorn_sound c n 0 p q _ Hq eq_refl) as [H E]. change (Z.of_nat 0) with 0%Z in *. split; [exact H|].
  rewrite Nat.add_0_l in E. set (f := INR (fact n)) in *. cbn [pow fact esum] in E. change (INR 1) with 1 in E. lra.
Qed.
(** exp (p/q) for 0 <= p/q <= 1 is at least (at most) a/m *)
Definition exp_lo_chk (p q a m : Z) : bool := let (N, D) := ehorn 0 16 0 p q in (0 <=? p)%Z && (a * D <=? m * N)%Z.
Definition exp_hi_chk (p q a m : Z) : bool := let (N, D) := ehorn 3 16 0 p q in (0 <=? p)%Z && (p <=? q)%Z && (m * N <=? a * D)%Z.
Lemma frac_le a b c d : (0 < b)%Z -> (0 < d)%Z -> (a * d <= b * c)%Z -> IZR a / IZR b <= IZR c / IZR d.
Proof.
  intros Hb Hd H. apply IZR_le in H. rewrite !mult_IZR in H. apply IZR_lt in Hb, Hd.
  apply Rmult_le_reg_r with (IZR b * IZR d); [now apply Rmult_lt_0_compat|].
  replace (IZR a / IZR b * (IZR b * IZR d)) with (IZR a * IZR d) by (field; lra).
  replace (IZR c / IZR d * (IZR b * IZR d)) with (IZR b * IZR c) by (field; lra). exact H.
Qed.
Lemma exp_lo_sound p q a m : (0 < q)%Z -> (0 < m)%Z -> exp_lo_chk p q a m = true -> IZR a / IZR m <= exp (IZR p / IZR q).
Proof.
  intros Hq Hm H. unfold exp_lo_chk in H. destruct (ehorn_0 0 16 p q Hq) as [HD E].
  destruct (ehorn 0 16 0 p q) as [N D]. cbn [fst snd] in *.
  apply andb_prop in H as [H1 H2]. apply Z.leb_le in H1, H2. apply IZR_le in H1. apply IZR_lt in Hq as Hq'.
  assert (Hx : 0 <= IZR p / IZR q) by (apply Rmult_le_pos; [lra|left; now apply Rinv_0_lt_compat]).
  apply Rle_trans with (IZR N / IZR D); [now apply frac_le|].
  eapply Rle_trans; [|apply (exp_lower 16 _ Hx)]. rewrite E, Rmult_0_l, Rplus_0_r. right. reflexivity.
Qed.
Lemma exp_hi_sound p q a m : (0 < q)%Z -> (0 < m)%Z -> exp_hi_chk p q a m = true -> exp (IZR p / IZR q) <= IZR a / IZR m.
Proof.
  intros Hq Hm H. unfold exp_hi_chk in H. destruct (ehorn_0 3 16 p q Hq) as [HD E].
  destruct (ehorn 3 16 0 p q) as [N D]. cbn [fst snd] in *.
  apply andb_prop in H as [H H3]. apply andb_prop in H as [H1 H2]. apply Z.leb_le in H1, H2, H3. apply IZR_le in H1, H2. apply IZR_lt in Hq as Hq'.
  assert (Hx : 0 <= IZR p / IZR q <= 1).
  { split; [apply Rmult_le_pos; [lra|left; now apply Rinv_0_lt_compat]|]. apply Rmult_le_reg_r with (IZR q); [lra|].
    unfold Rdiv. rewrite Rmult_assoc, Rinv_l by lra. lra. }
  apply Rle_trans with (IZR N / IZR D).
  - eapply Rle_trans; [apply (exp_upper 16 _ Hx)|]. rewrite E. right. reflexivity.
  - apply frac_le; auto. lia.
Qed.
(** exp on [0,8]: divide the argument by 8; a8, a4, a2 approximate exp (x/8), exp (x/4), exp (x/2), times m. *)
Definition exp8_lo_chk (p q m a8 a4 a2 a : Z) : bool :=
  exp_lo_chk p (8 * q) a8 m && (0 <=? a8)%Z && (0 <=? a4)%Z && (0 <=? a2)%Z && (m * a4 <=? a8 * a8)%Z && (m * a2 <=? a4 * a4)%Z && (m * a <=? a2 * a2)%Z.
Definition exp8_hi_chk (p q m a8 a4 a2 a : Z) : bool :=
  exp_hi_chk p (8 * q) a8 m && (a8 * a8 <=? m * a4)%Z && (a4 * a4 <=? m * a2)%Z && (a2 * a2 <=? m * a)%Z.
Lemma exp_dbl x : exp x = exp (x / 2) * exp (x / 2).
Proof. rewrite <- exp_plus. f_equal. field. Qed.
Lemma sq_lo a b m y : (0 < m)%Z -> (0 <= a)%Z -> (m * b <= a * a)%Z -> IZR a / IZR m <= y -> IZR b / IZR m <= y * y.
Proof.
  intros Hm Ha H Hy. apply IZR_le in H, Ha. rewrite !mult_IZR in H. apply IZR_lt in Hm.
  assert (H0 : 0 <= IZR a / IZR m) by (apply Rmult_le_pos; [lra|left; now apply Rinv_0_lt_compat]).
  apply Rle_trans with (IZR a / IZR m * (IZR a / IZR m)); [|apply Rmult_le_compat; auto].
  apply Rmult_le_reg_r with (IZR m * IZR m); [now apply Rmult_lt_0_compat|].
  replace (IZR b / IZR m * (IZR m * IZR m)) with (IZR m * IZR b) by (field; lra).
  replace (IZR a / IZR m * (IZR a / IZR m) * (IZR m * IZR m)) with (IZR a * IZR a) by (field; lra). exact H.
Qed.
Lemma sq_hi a b m y : (0 < m)%Z -> (a * a <= m * b)%Z -> 0 <= y -> y <= IZR a / IZR m -> y * y <= IZR b / IZR m.
Proof.
  intros Hm H H0 Hy. apply IZR_le in H. rewrite !mult_IZR in H. apply IZR_lt in Hm.
  apply Rle_trans with (IZR a / IZR m * (IZR a / IZR m)); [apply Rmult_le_compat; auto|].
  apply Rmult_le_reg_r with (IZR m * IZR m); [now apply Rmult_lt_0_compat|].
  replace (IZR b / IZR m * (IZR m * IZR m)) with (IZR m * IZR b) by (field; lra).
  replace (IZR a / IZR m * (IZR a / IZR m) * (IZR m * IZR m)) with (IZR a * IZR a) by (field; lra). exact H.
Qed.
Lemma exp8_lo_sound p q m a8 a4 a2 a : (0 < q)%Z -> (0 < m)%Z -> exp8_lo_chk p q m a8 a4 a2 a = true -> IZR a / IZR m <= exp (IZR p / IZR q).
Proof.
  intros Hq Hm H. unfold exp8_lo_chk in H. do 6 (let H' := fresh "C" in apply andb_prop in H as [H H']; apply Z.leb_le in H').
  apply exp_lo_sound in H; auto; try lia. apply IZR_lt in Hq as Hq'.
  rewrite exp_dbl. apply (sq_lo a2); auto. rewrite exp_dbl. apply (sq_lo a4); auto. rewrite exp_dbl. apply (sq_lo a8); auto.
  eapply Rle_trans; [exact H|]. right. f_equal. rewrite mult_IZR. field. lra.
Qed.
Lemma exp8_hi_sound p q m a8 a4 a2 a : (0 < q)%Z -> (0 < m)%Z -> exp8_hi_chk p q m a8 a4 a2 a = true -> exp (IZR p / IZR q) <= IZR a / IZR m.
Proof.
  intros Hq Hm H. unfold exp8_hi_chk in H. do 3 (let H' := fresh "C" in apply andb_prop in H as [H H']; apply Z.leb_le in H').
  apply exp_hi_sound in H; auto; try lia. apply IZR_lt in Hq as Hq'.
  rewrite exp_dbl. apply (sq_hi a2); auto; [left; apply exp_pos|]. rewrite exp_dbl. apply (sq_hi a4); auto; [left; apply exp_pos|].
  rewrite exp_dbl. apply (sq_hi a8); auto; [left; apply exp_pos|].
  eapply Rle_trans; [|exact H]. right. f_equal. rewrite mult_IZR. field. lra.
Qed.

(** ** PI *)
Definition qpi_t (k : nat) : Q :=
  ((2 * Qpower_positive (1 # 3) (Pos.of_nat (2 * k + 1)) + Qpower_positive (1 # 7) (Pos.of_nat (2 * k + 1))) * (1 # Pos.of_nat (2 * k + 1)))%Q.
Fixpoint qpi (n : nat) : Q :=
  match n with
  | O => qpi_t 0
  | S m => Qred (qpi m + (if Nat.even n then 1 else -1) * qpi_t n)%Q
  end.
Lemma qpi_sound n : Q2R (qpi n) = sum_f_R0 (tg_alt PI_2_3_7_tg) n.
Proof.
  assert (Ht : forall k, Q2R (qpi_t k) = PI_2_3_7_tg k).
  { intros k. unfold qpi_t. rewrite Q2R_mult, Q2R_plus, Q2R_mult, !Q2R_pow. rewrite Nat2Pos.id by lia.
    unfold PI_2_3_7_tg, Ratan_seq. replace (Q2R 2) with 2 by (unfold Q2R; cbn; field).
    replace (Q2R (1 # 3)) with (/ 3) by (unfold Q2R; cbn; field). replace (Q2R (1 # 7)) with (/ 7) by (unfold Q2R; cbn; field).
    replace (Q2R (1 # Pos.of_nat (2 * k + 1))) with (/ INR (2 * k + 1)).
    - unfold Rdiv. ring.
    - unfold Q2R. cbn [Qnum Qden]. rewrite INR_IZR_INZ. replace (Z.of_nat (2 * k + 1)) with (Z.pos (Pos.of_nat (2 * k + 1))) by lia. ring. }
  induction n as [|n IH].
  - cbn [sum_f_R0]. unfold tg_alt. cbn [pow]. rewrite Rmult_1_l. apply Ht.
  - cbn [sum_f_R0]. rewrite <- IH. cbn [qpi]. rewrite (Qeq_eqR _ _ (Qred_correct _)), Q2R_plus, Q2R_mult, Ht. f_equal.
    unfold tg_alt. f_equal.
    destruct (Nat.even (S n)) eqn:E.
    + apply Nat.even_spec in E as [j ->]. rewrite pow_1_even. unfold Q2R; cbn; field.
    + assert (Ho : Nat.odd (S n) = true) by (rewrite <- Nat.negb_even, E; reflexivity). apply Nat.odd_spec in Ho as [j ->].
      rewrite Nat.add_1_r, pow_1_odd. unfold Q2R; cbn; field.
Qed.
Lemma PI_bounds : 31415926535897932 / 10000000000000000 <= PI <= 31415926535897933 / 10000000000000000.
Proof.
  pose proof (PI_2_3_7_ineq 11) as [H1 H2]. rewrite <- !qpi_sound in *.
  assert (L1 : Q2R (31415926535897932 # 40000000000000000) <= Q2R (qpi (S (2 * 11)))) by (apply Qle_sound; vm_compute; reflexivity).
  assert (L2 : Q2R (qpi (2 * 11)) <= Q2R (31415926535897933 # 40000000000000000)) by (apply Qle_sound; vm_compute; reflexivity).
  rewrite Q2R_frac in L1, L2. lra.
Qed.
Lemma sqrt_PI_bounds : 17724538509055159 / 10000000000000000 <= sqrt PI <= 17724538509055161 / 10000000000000000.
Proof.
  pose proof PI_bounds. split.
  - rewrite <- (sqrt_square (17724538509055159 / 10000000000000000)) by lra. apply sqrt_le_1_alt. lra.
  - rewrite <- (sqrt_square (17724538509055161 / 10000000000000000)) by lra. apply sqrt_le_1_alt. lra.
Qed.
