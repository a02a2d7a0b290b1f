(** erfinv on the extended reals. *)
From Verif Require Import Base Arith64 RFacts MRandom MDist.
From Coq Require Import Reals Lra Psatz.
Local Open Scope R_scope.

Lemma lit10_pos p k : (0 < p)%Z -> 0 < lit10 (a:=RA) p k.
Proof.
  intros Hp. unfold lit10. cbn [flit RA]. apply Rdiv_lt_0_compat; apply IZR_lt; [exact Hp|apply Pos2Z.is_pos].
Qed.
Lemma lit10_ext p k : lit10 (a:=EA) p k = Fin (lit10 (a:=RA) p k).
Proof. reflexivity. Qed.
Lemma lit10_val p k q : Z.pow 10 (Z.of_N k) = Zpos q -> lit10 (a:=RA) p k = IZR p / IZR (Zpos q).
Proof. intros H. unfold lit10. rewrite H. reflexivity. Qed.

Lemma horner_pos c7 c6 c5 c4 c3 c2 c1 c0 r : 0 <= r ->
  0 < c7 -> 0 < c6 -> 0 < c5 -> 0 < c4 -> 0 < c3 -> 0 < c2 -> 0 < c1 -> 0 < c0 ->
  0 < horner8 (a:=RA) c7 c6 c5 c4 c3 c2 c1 c0 r.
Proof.
  intros Hr H7 H6 H5 H4 H3 H2 H1 H0. unfold horner8. cbn [fadd fmul RA].
  assert (G : forall x y : R, 0 < x -> 0 < y -> 0 < x * r + y) by (intros; nra).
  repeat apply G; assumption.
Qed.

Ltac horner := intros; apply horner_pos; [assumption|apply lit10_pos; reflexivity..].
Lemma num_a_pos r : 0 <= r -> 0 < erfinv_num_a (a:=RA) r. Proof. horner. Qed.
Lemma den_a_pos r : 0 <= r -> 0 < erfinv_den_a (a:=RA) r. Proof. horner. Qed.
Lemma num_c_pos r : 0 <= r -> 0 < erfinv_num_c (a:=RA) r. Proof. horner. Qed.
Lemma den_c_pos r : 0 <= r -> 0 < erfinv_den_c (a:=RA) r. Proof. horner. Qed.
Lemma num_e_pos r : 0 <= r -> 0 < erfinv_num_e (a:=RA) r. Proof. horner. Qed.
Lemma den_e_pos r : 0 <= r -> 0 < erfinv_den_e (a:=RA) r. Proof. horner. Qed.

(** The contract of sqrt and log1p used here. *)
Definition sqrt_ok (m : Libm EA) : Prop := forall r, 0 <= r -> lsqrt EA m (Fin r) = Fin (sqrt r).
Definition log1p_ok (m : Libm EA) : Prop := forall r, -1 < r -> llog1p EA m (Fin r) = Fin (ln (1 + r)).

(** ln 0.15 <= -1.867 *)
Lemma ln_015 : ln (15 / 100) <= - (1867 / 1000).
Proof.
  rewrite <- (ln_exp (- (1867 / 1000))).
  assert (H : 15 / 100 <= exp (- (1867 / 1000))).
  { replace (- (1867 / 1000)) with (INR 128 * (- (1867 / 128000))) by (cbn [INR]; field).
    assert (Hp : forall n x, exp (INR n * x) = exp x ^ n).
    { induction n as [|n IH]; intros x; [cbn; rewrite Rmult_0_l; apply exp_0|].
      rewrite S_INR. replace ((INR n + 1) * x) with (x + INR n * x) by ring. rewrite exp_plus, IH. reflexivity. }
    rewrite Hp. apply Rle_trans with ((126133 / 128000) ^ 128).
    - assert (Hd : 0 < 128000 ^ 128) by (apply pow_lt; lra).
      unfold Rdiv at 2. rewrite Rpow_mult_distr, pow_inv.
      apply Rmult_le_reg_r with (128000 ^ 128); [exact Hd|].
      rewrite Rmult_assoc, Rinv_l, Rmult_1_r by lra.
      rewrite !pow_IZR. apply Rmult_le_reg_l with 100; [lra|]. rewrite <- Rmult_assoc.
      replace (100 * (15 / 100)) with 15 by field. rewrite <- !mult_IZR. apply IZR_le. now vm_compute.
    - apply pow_incr. split; [lra|]. pose proof (exp_ineq1_le (- (1867 / 128000))). lra. }
  destruct H as [H|H]; [left; apply ln_increasing; [lra|exact H]|]. right. now rewrite H.
Qed.

(** the argument of the outer branches *)
Lemma outer_arg x : 85 / 100 < x < 1 -> 16 / 10 <= sqrt (LN2 (a:=RA) - ln (1 + - x)).
Proof.
  intros Hx. assert (H1 : ln (1 + - x) <= - (1867 / 1000)).
  { eapply Rle_trans; [|exact ln_015]. left. apply ln_increasing; lra. }
  assert (H2 : 6931 / 10000 <= LN2 (a:=RA)).
  { unfold LN2. rewrite (lit10_val _ _ 10000000000000000000000000000000) by reflexivity.
    apply Rmult_le_reg_r with (IZR 10000000000000000000000000000000); [apply IZR_lt; reflexivity|].
    unfold Rdiv at 2. rewrite Rmult_assoc, Rinv_l, Rmult_1_r by (apply not_0_IZR; discriminate). lra. }
  apply Rle_trans with (sqrt ((16 / 10) * (16 / 10))); [rewrite sqrt_square by lra; lra|].
  apply sqrt_le_1_alt. lra.
Qed.

Section Erfinv.
Context (m : Libm EA).
Hypothesis Hs : sqrt_ok m.
Hypothesis Hl : log1p_ok m.

(** The value of the rational approximation at |x|, and its sign. *)
Definition approx (x : R) : R :=
  if Rleb x (lit10 (a:=RA) 85 2) then
    let r := lit10 (a:=RA) 180625 6 - lit10 (a:=RA) 25 2 * x * x in
    x * erfinv_num_a (a:=RA) r / erfinv_den_a (a:=RA) r
  else
    let r := sqrt (LN2 (a:=RA) - ln (1 + - x)) in
    if Rleb r 5 then
      erfinv_num_c (a:=RA) (r - lit10 (a:=RA) 16 1) / erfinv_den_c (a:=RA) (r - lit10 (a:=RA) 16 1)
    else erfinv_num_e (a:=RA) (r - 5) / erfinv_den_e (a:=RA) (r - 5).

Lemma lit85 : lit10 (a:=RA) 85 2 = 85 / 100. Proof. apply lit10_val. reflexivity. Qed.
Lemma lit16 : lit10 (a:=RA) 16 1 = 16 / 10. Proof. apply lit10_val. reflexivity. Qed.
Lemma central_nonneg x : Rabs x <= 85 / 100 -> 0 <= lit10 (a:=RA) 180625 6 - lit10 (a:=RA) 25 2 * x * x.
Proof.
  intros H. rewrite (lit10_val 180625 6 1000000), (lit10_val 25 2 100) by reflexivity.
  assert (x * x <= 85 / 100 * (85 / 100)).
  { rewrite <- (Rabs_right (x * x)) by nra. rewrite Rabs_mult. pose proof (Rabs_pos x). nra. }
  lra.
Qed.

Lemma approx_pos x : 0 < x < 1 -> 0 < approx x.
Proof.
  intros Hx. unfold approx. cbv zeta. rewrite lit85.
  destruct (Rleb_spec x (85 / 100)).
  - pose proof (central_nonneg x ltac:(rewrite Rabs_right; lra)) as Hr.
    apply Rdiv_lt_0_compat; [apply Rmult_lt_0_compat; [lra|]|]; [now apply num_a_pos|now apply den_a_pos].
  - pose proof (outer_arg x ltac:(lra)) as Hr. rewrite lit16. set (r := sqrt _) in *.
    destruct (Rleb_spec r 5).
    + apply Rdiv_lt_0_compat; [apply num_c_pos|apply den_c_pos]; lra.
    + apply Rdiv_lt_0_compat; [apply num_e_pos|apply den_e_pos]; lra.
Qed.

Lemma ediv_fin x y : 0 < y -> ediv (Fin x) (Fin y) = Fin (x / y).
Proof. intros H. cbn. destruct (Req_EM_T y 0); [lra|reflexivity]. Qed.

(** inside (-1,1) *)
Lemma erfinv_inner x : -1 < x < 1 ->
  erfinv (a:=EA) m (Fin x) = Fin (if Rlt_dec x 0 then - approx (- x) else approx x).
Proof.
  intros Hx. unfold erfinv. cbn [flt feq fle fofZ f1 f0 fabs EA eltb eeqb eabs].
  destruct (Rltb_spec x (-1)); [lra|]. destruct (Rltb_spec 1 x); [lra|]. cbn [orb].
  destruct (Reqb_spec x 1); [lra|]. destruct (Reqb_spec x (-1)); [lra|].
  cbv zeta. rewrite !lit10_ext. cbn [eleb].
  set (sg := if Rlt_dec x 0 then - approx (- x) else approx x).
  assert (Ha : approx (Rabs x) = approx (if Rlt_dec x 0 then - x else x)).
  { f_equal. unfold Rabs. destruct (Rcase_abs x), (Rlt_dec x 0); lra. }
  destruct (Rleb_spec (Rabs x) (lit10 (a:=RA) 85 2)) as [H|H].
  - rewrite lit85 in H. pose proof (central_nonneg x H) as Hr.
    cbn [fadd fsub fmul fdiv EA eadd eopp emul]. 
    match goal with |- context [erfinv_num_a (a:=EA) (Fin ?r)] =>
      change (erfinv_num_a (a:=EA) (Fin r)) with (Fin (erfinv_num_a (a:=RA) r));
      change (erfinv_den_a (a:=EA) (Fin r)) with (Fin (erfinv_den_a (a:=RA) r));
      change r with (lit10 (a:=RA) 180625 6 - lit10 (a:=RA) 25 2 * x * x) end.
    cbn [emul]. rewrite ediv_fin by now apply den_a_pos. f_equal. unfold sg, approx. cbv zeta. rewrite lit85.
    destruct (Rlt_dec x 0) as [Hn|Hn].
    + destruct (Rleb_spec (- x) (85 / 100)); [|rewrite Rabs_left in H; lra].
      replace (lit10 (a:=RA) 25 2 * - x * - x) with (lit10 (a:=RA) 25 2 * x * x) by ring. unfold Rdiv. ring.
    + apply Rnot_lt_le in Hn. rewrite Rabs_right in H by lra. destruct (Rleb_spec x (85 / 100)); [reflexivity|lra].
  - rewrite lit85 in H. assert (Hx1 : 85 / 100 < Rabs x < 1).
    { split; [lra|]. apply Rabs_def1; lra. }
    pose proof (outer_arg _ Hx1) as Hr.
    cbn [fopp EA eopp]. rewrite Hl by lra.
    change (LN2 (a:=EA)) with (Fin (LN2 (a:=RA))). cbn [fsub EA eadd eopp].
    assert (Hnn : 0 <= LN2 (a:=RA) + - ln (1 + - Rabs x)).
    { destruct (Rle_lt_dec 0 (LN2 (a:=RA) + - ln (1 + - Rabs x))) as [|Hneg]; auto.
      rewrite sqrt_neg_0 in Hr; lra. }
    rewrite Hs by exact Hnn. cbn [eleb fsub fofZ EA eadd eopp].
    change (LN2 (a:=RA) + - ln (1 + - Rabs x)) with (LN2 (a:=RA) - ln (1 + - Rabs x)).
    set (r := sqrt (LN2 (a:=RA) - ln (1 + - Rabs x))) in *.
    assert (Ecs : forall y, 0 < y -> copysign (a:=EA) (Fin y) (Fin x) = Fin (if Rlt_dec x 0 then - y else y)).
    { intros y Hy. unfold copysign. cbn [flt f0 fabs fopp EA eltb eabs eopp]. rewrite (Rabs_right y) by lra.
      destruct (Rltb_spec x 0), (Rlt_dec x 0); auto; lra. }
    assert (Esg : sg = if Rlt_dec x 0 then - approx (Rabs x) else approx (Rabs x)).
    { unfold sg. rewrite Ha. destruct (Rlt_dec x 0); reflexivity. }
    rewrite Esg. unfold approx. cbv zeta. rewrite lit85.
    destruct (Rleb_spec (Rabs x) (85 / 100)); [lra|]. fold r.
    destruct (Rleb_spec r 5).
    + match goal with |- context [erfinv_num_c (a:=EA) (Fin ?u)] =>
        change (erfinv_num_c (a:=EA) (Fin u)) with (Fin (erfinv_num_c (a:=RA) u));
        change (erfinv_den_c (a:=EA) (Fin u)) with (Fin (erfinv_den_c (a:=RA) u));
        change u with (r - lit10 (a:=RA) 16 1) end.
      rewrite lit16. cbn [fdiv EA]. rewrite ediv_fin by (apply den_c_pos; lra). apply Ecs.
      apply Rdiv_lt_0_compat; [apply num_c_pos|apply den_c_pos]; lra.
    + match goal with |- context [erfinv_num_e (a:=EA) (Fin ?u)] =>
        change (erfinv_num_e (a:=EA) (Fin u)) with (Fin (erfinv_num_e (a:=RA) u));
        change (erfinv_den_e (a:=EA) (Fin u)) with (Fin (erfinv_den_e (a:=RA) u));
        change u with (r - 5) end.
      cbn [fdiv EA]. rewrite ediv_fin by (apply den_e_pos; lra). apply Ecs.
      apply Rdiv_lt_0_compat; [apply num_e_pos|apply den_e_pos]; lra.
Qed.
End Erfinv.
