(** Accuracy of erfinv on (-1,1). *)
From Verif Require Import Base Arith64 RFacts MRandom MDist PErfinv.
From Coq Require Import ZArith List Bool Lia.
From Coq Require Import Reals Lra Psatz.
From Coquelicot Require Import Coquelicot.
From Verif Require Import SGauss PGauss PPoly PErfAcc PErfNum PErfAcc2 PErfAcc3.
Local Open Scope R_scope.

Lemma mid_acc s : 0 <= s <= 17 / 5 -> Rabs (1 - Erf (rat NC DC s) - comp (8 / 5 + s)) <= / 1000000000 * comp (8 / 5 + s).
Proof.
  intros Hs. pose proof (mid_incr s (17 / 5) ltac:(lra) ltac:(lra) ltac:(lra)) as H.
  pose proof join as Hj. pose proof (far_acc 0 ltac:(lra)) as Hf.
  replace (8 / 5 + 17 / 5) with 5 in H by field. rewrite Rplus_0_r in Hf.
  pose proof (comp_decr (8 / 5 + s) 5 ltac:(lra)) as Hc. pose proof (comp_pos 5) as Hp.
  apply Rabs_le_between in H. apply Rabs_le_between in Hj. apply Rabs_le_between in Hf. apply Rabs_le. lra.
Qed.

(** rho as a function of x *)
Definition rho (x : R) : R := sqrt (LN2 (a:=RA) - ln (1 + - x)).
Lemma rho_comp x : 85 / 100 < x < 1 -> comp (rho x) = 1 - x.
Proof.
  intros Hx. pose proof (outer_arg x Hx) as H. fold (rho x) in H. unfold comp, kap.
  assert (Hn : 0 <= LN2 (a:=RA) - ln (1 + - x)).
  { destruct (Rle_lt_dec 0 (LN2 (a:=RA) - ln (1 + - x))) as [|Hneg]; auto. unfold rho in H. rewrite sqrt_neg_0 in H; lra. }
  unfold rho. rewrite sqrt_sqrt by exact Hn. rewrite <- exp_plus.
  replace (LN2 (a:=RA) + - (LN2 (a:=RA) - ln (1 + - x))) with (ln (1 + - x)) by (match goal with |- ?u = ?w => change (@eq R u w) end; ring).
  rewrite exp_ln; lra.
Qed.

Definition tiny : R := / 10 ^ 250.
Lemma rho_le x : 85 / 100 < x -> tiny <= 1 - x -> rho x <= 25.
Proof.
  intros Hx Ht. assert (Hx1 : x < 1) by (assert (0 < tiny) by (apply Rinv_0_lt_compat, pow_lt; lra); lra).
  unfold rho. rewrite <- (sqrt_square 25) by lra. apply sqrt_le_1_alt.
  assert (H10 : 10 <= exp (24 / 10)).
  { pose proof (exp_lower 7 (24 / 10) ltac:(lra)) as H. cbn in H. lra. }
  assert (Hl : - 600 <= ln (1 + - x)).
  { assert (Hln : ln 10 <= 24 / 10). { rewrite <- (ln_exp (24 / 10)). destruct H10 as [H10|H10]; [left; apply ln_increasing; lra|right; f_equal; exact H10]. }
    assert (Hlt : ln tiny = - (250 * ln 10)).
    { unfold tiny. rewrite ln_Rinv by (apply pow_lt; lra). rewrite <- Rpower_pow by lra. unfold Rpower. rewrite ln_exp.
      rewrite INR_IZR_INZ. reflexivity. }
    assert (Hlm : ln tiny <= ln (1 + - x)).
    { destruct Ht as [Ht|Ht]; [left; apply ln_increasing; [apply Rinv_0_lt_compat, pow_lt; lra|lra]|right; f_equal; lra]. }
    lra. }
  assert (LN2 (a:=RA) <= 1).
  { rewrite LN2_q, Q2R_frac. apply Rmult_le_reg_r with (IZR 10000000000000000000000000000000); [apply IZR_lt; reflexivity|].
    unfold Rdiv. rewrite Rmult_assoc, Rinv_l, Rmult_1_r by (apply not_0_IZR; discriminate). lra. }
  lra.
Qed.

Lemma mid_rat r : erfinv_num_c (a:=RA) r / erfinv_den_c (a:=RA) r = rat NC DC r.
Proof.
  rewrite num_c_poly, den_c_poly. unfold rat. assert (IZR (10 ^ 34) <> 0) by (apply not_0_IZR; vm_compute; discriminate).
  destruct (Req_dec (peval DC r) 0) as [E|E]; [|now field].
  rewrite E. unfold Rdiv. rewrite !Rmult_0_l, Rinv_0, !Rmult_0_r. reflexivity.
Qed.
Lemma far_rat r : erfinv_num_e (a:=RA) r / erfinv_den_e (a:=RA) r = rat NE DE r.
Proof.
  rewrite num_e_poly, den_e_poly. unfold rat. assert (IZR (10 ^ 39) <> 0) by (apply not_0_IZR; vm_compute; discriminate).
  destruct (Req_dec (peval DE r) 0) as [E|E]; [|now field].
  rewrite E. unfold Rdiv. rewrite !Rmult_0_l, Rinv_0, !Rmult_0_r. reflexivity.
Qed.

(** very far: only the absolute error matters *)
Lemma peval_nonneg p x : 0 <= x -> forallb (Z.leb 0) p = true -> 0 <= peval p x.
Proof.
  intros Hx. induction p as [|c p IH]; intros H; [cbn; lra|]. cbn [forallb] in H. apply andb_prop in H as [Hc H].
  apply Z.leb_le, IZR_le in Hc. specialize (IH H). rewrite peval_cons. nra.
Qed.
Lemma peval_shift p o x : peval (phom p (o :: 1%Z :: nil) 1) x = peval p (IZR o + x).
Proof.
  rewrite peval_hom by discriminate. rewrite pow1, Rmult_1_l. f_equal. cbn. field.
Qed.
Lemma very_far s : 20 <= s -> 6 <= rat NE DE s.
Proof.
  intros Hs. apply rat_bound; [apply DE_pos; lra|].
  replace s with (20 + (s - 20)) by ring. rewrite <- (peval_shift _ 20). apply peval_nonneg; [lra|]. vm_compute. reflexivity.
Qed.

Lemma approx_acc x : 0 <= x < 1 ->
  Rabs (Erf (approx x) - x) <= / 1000000000 * x /\
  (tiny <= 1 - x -> Rabs (Erf (approx x) - x) <= / 1000000000 * (1 - x)).
Proof.
  intros Hx. unfold approx. cbv zeta. rewrite lit85. destruct (Rleb_spec x (85 / 100)) as [Hc|Hc].
  - rewrite center_rat. pose proof (center_acc x ltac:(lra)) as H. split; [|intros _]; lra.
  - rewrite lit16. fold (rho x). pose proof (outer_arg x ltac:(lra)) as Hr. fold (rho x) in Hr. pose proof (rho_comp x ltac:(lra)) as Ec.
    destruct (Rleb_spec (rho x) 5) as [H5|H5].
    + rewrite mid_rat. pose proof (mid_acc (rho x - 16 / 10) ltac:(lra)) as H.
      replace (8 / 5 + (rho x - 16 / 10)) with (rho x) in H by field. rewrite Ec in H.
      replace (1 - Erf (rat NC DC (rho x - 16 / 10)) - (1 - x)) with (- (Erf (rat NC DC (rho x - 16 / 10)) - x)) in H by ring. rewrite Rabs_Ropp in H.
      split; [|intros _]; lra.
    + rewrite far_rat. destruct (Rle_lt_dec (rho x) 25) as [H25|H25].
      * pose proof (far_acc (rho x - 5) ltac:(lra)) as H. replace (5 + (rho x - 5)) with (rho x) in H by ring. rewrite Ec in H.
        replace (1 - Erf (rat NE DE (rho x - 5)) - (1 - x)) with (- (Erf (rat NE DE (rho x - 5)) - x)) in H by ring. rewrite Rabs_Ropp in H.
        split; [|intros _]; lra.
      * split; [|intros Ht; pose proof (rho_le x ltac:(lra) Ht); lra].
        pose proof (very_far (rho x - 5) ltac:(lra)) as H6. destruct (Erf_tail (rat NE DE (rho x - 5)) ltac:(lra)) as [T1 T2].
        assert (He : exp (- (rat NE DE (rho x - 5) * rat NE DE (rho x - 5))) <= exp (- 36)) by (apply exp_mono; nra).
        assert (Hx2 : 1 - x <= 3 * exp (- 36)).
        { rewrite <- Ec. unfold comp. pose proof kap_bounds. pose proof (exp_pos (- (rho x * rho x))).
          assert (exp (- (rho x * rho x)) <= exp (- 36)) by (apply exp_mono; nra). nra. }
        assert (H36 : exp (- 36) <= / 1000000000000).
        { assert (H : 27 / 10 <= exp 1). { pose proof (exp_lower 5 1 ltac:(lra)) as H. cbn in H. lra. }
          assert (E : exp 36 = exp 1 ^ 36). { rewrite <- Rpower_pow by apply exp_pos. unfold Rpower. rewrite ln_exp. f_equal. rewrite Rmult_1_r. rewrite INR_IZR_INZ. reflexivity. }
          assert (G : 1000000000000 <= exp 36). { rewrite E. apply Rle_trans with ((27 / 10) ^ 36); [lra|]. apply pow_incr. lra. }
          replace (- 36) with (- (36)) by lra. rewrite exp_Ropp. apply Rinv_le_contravar; lra. }
        apply Rabs_le. lra.
Qed.

(** Both real versions of erfinv. *)
Definition erfinv_val (x : R) : R := if Rlt_dec x 0 then - approx (- x) else approx x.
Lemma erfinv_val_acc x : -1 < x < 1 ->
  Rabs (Erf (erfinv_val x) - x) <= / 1000000000 * Rabs x /\
  (tiny <= 1 - Rabs x -> Rabs (Erf (erfinv_val x) - x) <= / 1000000000 * (1 - Rabs x)).
Proof.
  intros Hx. unfold erfinv_val. destruct (Rlt_dec x 0) as [Hn|Hn].
  - rewrite Erf_opp, (Rabs_left x) by exact Hn. replace (- Erf (approx (- x)) - x) with (- (Erf (approx (- x)) - - x)) by ring.
    rewrite Rabs_Ropp. apply approx_acc. lra.
  - rewrite (Rabs_right x) by lra. apply approx_acc. lra.
Qed.

Lemma erfinv_RA (m : Libm RA) x : lsqrt RA m = sqrt -> llog1p RA m = (fun y => ln (1 + y)) -> -1 < x < 1 ->
  erfinv (a:=RA) m x = erfinv_val x.
Proof.
  intros Hs Hl Hx. unfold erfinv. cbn [flt feq fle fofZ f1 f0 fabs RA].
  destruct (Rltb_spec x (-1)); [lra|]. destruct (Rltb_spec 1 x); [lra|]. cbn [orb].
  destruct (Reqb_spec x 1); [lra|]. destruct (Reqb_spec x (-1)); [lra|]. cbv zeta.
  assert (Ea : Rabs x = if Rlt_dec x 0 then - x else x).
  { unfold Rabs. destruct (Rcase_abs x), (Rlt_dec x 0); lra. }
  unfold erfinv_val, approx. cbv zeta. rewrite !lit85, !lit16.
  cbn [fadd fsub fmul fdiv fopp RA]. rewrite Hs, Hl.
  assert (Ecs : forall y, 0 < y -> copysign (a:=RA) y x = if Rlt_dec x 0 then - y else y).
  { intros y Hy. unfold copysign. cbn [flt f0 fabs fopp RA]. rewrite (Rabs_right y) by lra. destruct (Rltb_spec x 0), (Rlt_dec x 0); auto; lra. }
  assert (K : 85 / 100 < Rabs x -> (if Rleb (sqrt (LN2 (a:=RA) - ln (1 + - Rabs x))) 5
     then copysign (a:=RA) (erfinv_num_c (a:=RA) (sqrt (LN2 (a:=RA) - ln (1 + - Rabs x)) - 16 / 10) / erfinv_den_c (a:=RA) (sqrt (LN2 (a:=RA) - ln (1 + - Rabs x)) - 16 / 10)) x
     else copysign (a:=RA) (erfinv_num_e (a:=RA) (sqrt (LN2 (a:=RA) - ln (1 + - Rabs x)) - 5) / erfinv_den_e (a:=RA) (sqrt (LN2 (a:=RA) - ln (1 + - Rabs x)) - 5)) x)
     = if Rlt_dec x 0 then - (if Rleb (rho (Rabs x)) 5 then erfinv_num_c (a:=RA) (rho (Rabs x) - 16 / 10) / erfinv_den_c (a:=RA) (rho (Rabs x) - 16 / 10) else erfinv_num_e (a:=RA) (rho (Rabs x) - 5) / erfinv_den_e (a:=RA) (rho (Rabs x) - 5))
       else (if Rleb (rho (Rabs x)) 5 then erfinv_num_c (a:=RA) (rho (Rabs x) - 16 / 10) / erfinv_den_c (a:=RA) (rho (Rabs x) - 16 / 10) else erfinv_num_e (a:=RA) (rho (Rabs x) - 5) / erfinv_den_e (a:=RA) (rho (Rabs x) - 5))).
  { intros Hc. pose proof (outer_arg (Rabs x) ltac:(split; [exact Hc|apply Rabs_def1; lra])) as Hr. unfold rho. set (r := sqrt _) in *.
    destruct (Rleb_spec r 5).
    - rewrite Ecs; [reflexivity|]. apply Rdiv_lt_0_compat; [apply num_c_pos|apply den_c_pos]; lra.
    - rewrite Ecs; [reflexivity|]. apply Rdiv_lt_0_compat; [apply num_e_pos|apply den_e_pos]; lra. }
  destruct (Rleb_spec (Rabs x) (85 / 100)) as [Hc|Hc].
  - destruct (Rlt_dec x 0).
    + destruct (Rleb_spec (- x) (85 / 100)); [|lra].
      replace (lit10 (a:=RA) 25 2 * - x * - x) with (lit10 (a:=RA) 25 2 * x * x) by ring.
      match goal with |- ?u = ?w => change (@eq R u w) end. unfold Rdiv. ring.
    + destruct (Rleb_spec x (85 / 100)); [reflexivity|lra].
  - eapply eq_trans; [exact (K ltac:(lra))|]. rewrite Ea in *. destruct (Rlt_dec x 0).
    + destruct (Rleb_spec (- x) (85 / 100)); [lra|reflexivity].
    + destruct (Rleb_spec x (85 / 100)); [lra|reflexivity].
Qed.
