(** erfinv inverts the error function (C66); the truncated normal distribution (C67); the joint
    distribution of activities and reluctances (C68). *)
From Verif Require Import Base BaseFacts Arith64 RFacts MRandom SRandom PRandom WRandom MDist SDist PDist PErfinv MNetwork SNetwork
  MAgents MDeGroot MActivity SActivity PActIter2 PActInit TActivity TMean TDist.
From Coq Require Import ZArith Reals Lra Psatz.
From Coquelicot Require Import Coquelicot.
From Verif Require Import SGauss PGauss PErfNum PErfAcc4.
Local Open Scope R_scope.

(** The C library's functions, without rounding. *)
Record math_libm (m : Libm RA) : Prop := {
  mm_pow : lpow RA m = Rpow; mm_sqrt : lsqrt RA m = sqrt; mm_erf : lerf RA m = Erf;
  mm_log1p : llog1p RA m = (fun x => ln (1 + x)); mm_exp : lexp RA m = exp }.

(** ** C66 *)
(** Erf as defined in SGauss is the error function: odd, increasing, with values in (-1,1), limits
    -1 and 1 and derivative 2/sqrt(pi) e^(-x^2). *)
Lemma small_exp e : 0 < e -> exp (- (/ e)) < e.
Proof.
  intros He. rewrite exp_Ropp. rewrite <- (Rinv_inv e) at 2. apply Rinv_lt_contravar.
  - apply Rmult_lt_0_compat; [now apply Rinv_0_lt_compat|apply exp_pos].
  - pose proof (Rinv_0_lt_compat e He). pose proof (exp_ineq1 (/ e) ltac:(lra)). lra.
Qed.
Lemma Erf_lim : is_lim Erf p_infty 1 /\ is_lim Erf m_infty (-1).
Proof.
  assert (K : forall e : posreal, exists M, forall x, M < x -> Rabs (Erf x - 1) < e).
  { intros [e He]. exists (1 + / e). cbn. intros x Hx. pose proof (Rinv_0_lt_compat e He) as Hi.
    destruct (Erf_tail x ltac:(lra)) as [H1 H2]. rewrite Rabs_minus_sym, Rabs_right by lra.
    eapply Rle_lt_trans; [exact H2|]. eapply Rle_lt_trans; [|exact (small_exp e He)].
    left. apply exp_increasing. nra. }
  split; apply is_lim_spec.
  - intros e. exact (K e).
  - intros e. destruct (K e) as [M HM]. exists (- M). intros x Hx. specialize (HM (- x) ltac:(lra)).
    rewrite Erf_opp in HM. replace (- Erf x - 1) with (- (Erf x - -1)) in HM by ring. rewrite Rabs_Ropp in HM. exact HM.
Qed.
Theorem C66_Erf_is_erf :
  (forall x, is_derive Erf x (2 / sqrt PI * exp (- (x * x)))) /\ Erf 0 = 0 /\ (forall x, Erf (- x) = - Erf x) /\
  (forall x y, x < y -> Erf x < Erf y) /\ is_lim Erf p_infty 1 /\ is_lim Erf m_infty (-1).
Proof.
  split; [exact Erf_derive|]. split; [exact Erf_0|]. split; [exact Erf_opp|]. split; [exact Erf_incr|]. exact Erf_lim.
Qed.

(** erf (erfinv x) is x, up to a relative error of 10^-9 in x and in 1 - |x| (the latter for
    |x| <= 1 - 10^-250, in particular for every double below 1). *)
Theorem C66_erfinv_inverts_erf (lm : Libm RA) : math_libm lm -> forall x, -1 < x < 1 ->
  Rabs (Erf (erfinv (a:=RA) lm x) - x) <= / 10 ^ 9 * Rabs x /\
  (Rabs x <= 1 - / 10 ^ 250 -> Rabs (Erf (erfinv (a:=RA) lm x) - x) <= / 10 ^ 9 * (1 - Rabs x)).
Proof.
  intros Hm x Hx. rewrite (erfinv_RA lm x (mm_sqrt lm Hm) (mm_log1p lm Hm) Hx).
  replace (10 ^ 9) with 1000000000 by ring. destruct (erfinv_val_acc x Hx) as [H1 H2]. split; [exact H1|].
  intros Ht. apply H2. unfold tiny. lra.
Qed.
(** The same with infinities and NaN: the result is finite. *)
Theorem C66_erfinv_inverts_erf_ext (lm : Libm EA) : sqrt_ok lm -> log1p_ok lm -> forall x, -1 < x < 1 ->
  exists y, erfinv (a:=EA) lm (Fin x) = Fin y /\
  Rabs (Erf y - x) <= / 10 ^ 9 * Rabs x /\ (Rabs x <= 1 - / 10 ^ 250 -> Rabs (Erf y - x) <= / 10 ^ 9 * (1 - Rabs x)).
Proof.
  intros Hs Hl x Hx. exists (erfinv_val x). split; [now apply erfinv_inner|].
  replace (10 ^ 9) with 1000000000 by ring. destruct (erfinv_val_acc x Hx) as [H1 H2]. split; [exact H1|].
  intros Ht. apply H2. unfold tiny. lra.
Qed.

(** ** C67 *)
(** [normal_cdf] is the distribution function of the normal distribution. *)
Theorem C67_normal_cdf mu sigma : 0 < sigma ->
  (forall x, is_derive (normal_cdf mu sigma) x (normal_density mu sigma x)) /\
  (forall x, 0 < normal_cdf mu sigma x < 1) /\
  is_lim (normal_cdf mu sigma) p_infty 1 /\ is_lim (normal_cdf mu sigma) m_infty 0.
Proof.
  intros Hs. assert (H2 : 0 < sqrt 2) by (apply sqrt_lt_R0; lra). assert (Hp : 0 < sigma * sqrt 2) by (now apply Rmult_lt_0_compat).
  split; [|split; [|split]].
  - intros x. unfold normal_cdf, normal_density. evar_last.
    + apply (is_derive_scal (fun x => 1 + Erf ((x - mu) / (sigma * sqrt 2))) x (/ 2)).
      apply (is_derive_plus (fun _ => 1) (fun x => Erf ((x - mu) / (sigma * sqrt 2)))); [apply is_derive_const|].
      apply (is_derive_comp Erf (fun x => (x - mu) / (sigma * sqrt 2))); [apply Erf_derive|].
      instantiate (1 := / (sigma * sqrt 2)). auto_derive; [auto|]. field. split; lra.
    + unfold plus, scal, zero; cbn. unfold mult; cbn. pose proof sqrt_PI_pos.
      replace (- ((x - mu) / (sigma * sqrt 2) * ((x - mu) / (sigma * sqrt 2)))) with (- ((x - mu) * (x - mu)) / (2 * (sigma * sigma))).
      * rewrite sqrt_mult by (try lra; left; apply PI_RGT_0). field. repeat split; lra.
      * replace 2 with (sqrt 2 * sqrt 2) at 1 by (apply sqrt_sqrt; lra). field. repeat split; lra.
  - intros x. unfold normal_cdf. pose proof (Erf_range ((x - mu) / (sigma * sqrt 2))). lra.
  - replace (Finite 1) with (Rbar_mult (/ 2) (1 + 1)) by (cbn; f_equal; lra). unfold normal_cdf.
    apply (is_lim_scal_l (fun x => 1 + Erf ((x - mu) / (sigma * sqrt 2))) (/ 2) p_infty (1 + 1)).
    apply (is_lim_plus' (fun _ => 1) _ p_infty 1 1); [apply is_lim_const|].
    apply is_lim_comp with p_infty; [exact (proj1 Erf_lim)| |exists 0; intros; discriminate].
    apply is_lim_spec. intros M. exists (mu + M * (sigma * sqrt 2)). intros x Hx.
    apply Rmult_lt_reg_r with (sigma * sqrt 2); [exact Hp|]. unfold Rdiv. rewrite Rmult_assoc, Rinv_l by lra. lra.
  - replace (Finite 0) with (Rbar_mult (/ 2) (1 + -1)) by (cbn; f_equal; lra). unfold normal_cdf.
    apply (is_lim_scal_l (fun x => 1 + Erf ((x - mu) / (sigma * sqrt 2))) (/ 2) m_infty (1 + -1)).
    apply (is_lim_plus' (fun _ => 1) _ m_infty 1 (-1)); [apply is_lim_const|].
    apply is_lim_comp with m_infty; [exact (proj2 Erf_lim)| |exists 0; intros; discriminate].
    apply is_lim_spec. intros M. exists (mu + M * (sigma * sqrt 2)). intros x Hx.
    apply Rmult_lt_reg_r with (sigma * sqrt 2); [exact Hp|]. unfold Rdiv. rewrite Rmult_assoc, Rinv_l by lra. lra.
Qed.

Section C67.
Context (lm : Libm RA) (Hm : math_libm lm).

Lemma lit5 : lit10 (a:=RA) 5 1 = / 2.
Proof. rewrite (lit10_val 5 1 10) by reflexivity. match goal with |- ?u = ?w => change (@eq R u w) end. field. Qed.
Lemma tn_cdf_gauss_R mu sigma x : tn_cdf_gauss (a:=RA) lm mu sigma x = normal_cdf mu sigma x.
Proof using Hm. unfold tn_cdf_gauss, normal_cdf. rewrite (mm_erf lm Hm), (mm_sqrt lm Hm), lit5. reflexivity. Qed.
Lemma Phi_R x : Phi (a:=RA) lm x = normal_cdf 0 1 x.
Proof using Hm.
  unfold Phi, normal_cdf. rewrite (mm_erf lm Hm), (mm_sqrt lm Hm), lit5. cbn [fadd fmul fdiv fofZ f1 RA].
  rewrite Rminus_0_r, Rmult_1_l. reflexivity.
Qed.

Lemma inverse_gauss mu sigma y : 0 < sigma -> 0 < y < 1 ->
  normal_cdf mu sigma (tn_inverse_cdf_gauss (a:=RA) lm mu sigma y) = / 2 * (1 + Erf (erfinv (a:=RA) lm (2 * y - 1))).
Proof using Hm.
  intros Hs Hy. unfold normal_cdf, tn_inverse_cdf_gauss. cbn [fadd fsub fmul fofZ f1 RA]. rewrite (mm_sqrt lm Hm).
  do 3 f_equal. assert (H2 : 0 < sqrt 2) by (apply sqrt_lt_R0; lra).
  match goal with |- context [erfinv ?u ?w] => generalize (erfinv u w) end. intros z. change R in z.
  match goal with |- ?u = ?w => change (@eq R u w) end. field. lra.
Qed.

Lemma truncated_error mu sigma eps y : 0 < sigma -> 0 <= y < 1 ->
  let c := normal_cdf mu sigma eps in let x := 2 * (y * (1 - c) + c) - 1 in
  -1 < x < 1 /\
  truncated_cdf mu sigma eps (tn_inverse_cdf (a:=RA) lm mu sigma eps y) - y
    = (Erf (erfinv (a:=RA) lm x) - x) / (2 * (1 - c)).
Proof using Hm.
  intros Hs Hy c x. unfold truncated_cdf, tn_inverse_cdf. rewrite tn_cdf_gauss_R. cbn [fadd fsub fmul f1 RA]. fold c.
  assert (Hc : 0 < c < 1) by (apply (C67_normal_cdf mu sigma Hs)).
  assert (Hy' : 0 < y * (1 - c) + c < 1) by nra. split; [unfold x; lra|].
  match goal with |- context [normal_cdf mu sigma ?z] => 
    replace (normal_cdf mu sigma z) with (/ 2 * (1 + Erf (erfinv (a:=RA) lm x))) by (symmetry; apply inverse_gauss; auto) end.
  generalize (Erf (erfinv (a:=RA) lm x)). intros e. unfold x. field. lra.
Qed.

(** inverse_cdf inverts the distribution function of the truncated normal distribution: the error is
    at most 10^-9 (1 - y), unless the arguments are within 10^-250 of the ends ... *)
Theorem C67_inverse_cdf mu sigma eps y : 0 < sigma -> 0 <= y < 1 ->
  / 10 ^ 250 <= normal_cdf mu sigma eps -> / 10 ^ 250 <= (1 - y) * (1 - normal_cdf mu sigma eps) ->
  Rabs (truncated_cdf mu sigma eps (tn_inverse_cdf (a:=RA) lm mu sigma eps y) - y) <= / 10 ^ 9 * (1 - y).
Proof using Hm.
  intros Hs Hy Hc1 Hc2. destruct (truncated_error mu sigma eps y Hs Hy) as [Hx E]. rewrite E.
  pose proof (proj2 (C66_erfinv_inverts_erf lm Hm _ Hx)) as H. clear E.
  pose proof (proj1 (proj2 (C67_normal_cdf mu sigma Hs)) eps) as Hc.
  set (c := normal_cdf mu sigma eps) in *. set (t := / 10 ^ 250) in *.
  assert (Ht : 0 < t) by (apply Rinv_0_lt_compat, pow_lt; lra). clearbody t c.
  set (y' := y * (1 - c) + c) in *. assert (E1 : 1 - y' = (1 - y) * (1 - c)) by (unfold y'; ring).
  assert (Hab : Rabs (2 * y' - 1) <= 1 - t /\ 1 - Rabs (2 * y' - 1) <= 2 * ((1 - y) * (1 - c))).
  { assert (t <= y') by (unfold y'; nra). rewrite <- E1. unfold Rabs. destruct (Rcase_abs (2 * y' - 1)); lra. }
  destruct Hab as [Ha Hb]. specialize (H Ha).
  unfold Rdiv. rewrite Rabs_mult, (Rabs_right (/ _)) by (left; apply Rinv_0_lt_compat; lra).
  apply Rmult_le_reg_r with (2 * (1 - c)); [lra|]. rewrite Rmult_assoc, Rinv_l, Rmult_1_r by lra.
  eapply Rle_trans; [exact H|]. rewrite !Rmult_assoc. apply Rmult_le_compat_l; [left; apply Rinv_0_lt_compat, pow_lt; lra|]. lra.
Qed.
(** ... and never more than 10^-9 divided by the probability of the values above the truncation point. *)
Theorem C67_inverse_cdf_always mu sigma eps y : 0 < sigma -> 0 <= y < 1 ->
  Rabs (truncated_cdf mu sigma eps (tn_inverse_cdf (a:=RA) lm mu sigma eps y) - y) <= / 10 ^ 9 / (1 - normal_cdf mu sigma eps).
Proof using Hm.
  intros Hs Hy. destruct (truncated_error mu sigma eps y Hs Hy) as [Hx E]. rewrite E.
  pose proof (proj1 (C66_erfinv_inverts_erf lm Hm _ Hx)) as H. clear E.
  pose proof (proj1 (proj2 (C67_normal_cdf mu sigma Hs)) eps) as Hc.
  set (c := normal_cdf mu sigma eps) in *. clearbody c.
  assert (Ha : Rabs (2 * (y * (1 - c) + c) - 1) <= 1) by (apply Rabs_le; lra).
  assert (Hi : 0 < / 10 ^ 9) by (apply Rinv_0_lt_compat, pow_lt; lra).
  unfold Rdiv. rewrite Rabs_mult, (Rabs_right (/ _)) by (left; apply Rinv_0_lt_compat; lra).
  rewrite Rinv_mult, <- Rmult_assoc. apply Rmult_le_compat_r; [left; apply Rinv_0_lt_compat; lra|].
  nra.
Qed.

Lemma pow2 x : Rpow x 2 = x * x.
Proof.
  unfold Rpow. destruct (Rlt_dec 0 x); [replace 2 with (1 + 1) by ring; rewrite Rpower_plus, Rpower_1 by auto; reflexivity|].
  destruct (Req_EM_T 2 0); [lra|]. destruct (Req_EM_T x 0) as [->|]; [ring|].
  replace (Int_part 2) with 2%Z; [change (powerRZ x 2) with (x ^ 2); ring|]. symmetry. unfold Int_part. rewrite <- (tech_up 2 3); [reflexivity|lra|lra].
Qed.
(** pdf is the density of the distribution inverted by inverse_cdf, up to the 17th digit of pi. *)
Theorem C67_pdf mu sigma eps : 0 < sigma ->
  (forall x, x < eps -> tn_pdf (a:=RA) lm mu sigma eps x = 0) /\
  (forall x, eps <= x -> exists f, is_derive (truncated_cdf mu sigma eps) x f /\ 0 < f /\
     Rabs (tn_pdf (a:=RA) lm mu sigma eps x - f) <= / 10 ^ 15 * f) /\
  truncated_cdf mu sigma eps eps = 0 /\ is_lim (truncated_cdf mu sigma eps) p_infty 1.
Proof using Hm.
  intros Hs. destruct (C67_normal_cdf mu sigma Hs) as (Hd & Hr & Hl & _). pose proof (Hr eps) as Hc.
  split; [|split; [|split]].
  - intros x Hx. unfold tn_pdf. cbn [flt f0 RA]. destruct (Rltb_spec x eps); [reflexivity|lra].
  - intros x Hx. exists (normal_density mu sigma x / (1 - normal_cdf mu sigma eps)).
    assert (Hp0 : 0 < sqrt (2 * PI)) by (apply sqrt_lt_R0; pose proof PI_RGT_0; lra).
    assert (Hnd : 0 < normal_density mu sigma x).
    { unfold normal_density. apply Rmult_lt_0_compat; [apply Rinv_0_lt_compat; now apply Rmult_lt_0_compat|apply exp_pos]. }
    assert (Hf : 0 < normal_density mu sigma x / (1 - normal_cdf mu sigma eps)) by (apply Rdiv_lt_0_compat; lra).
    split; [|split; [exact Hf|]].
    + apply (is_derive_ext (fun x => / (1 - normal_cdf mu sigma eps) * (normal_cdf mu sigma x - normal_cdf mu sigma eps))).
      { intros z. unfold truncated_cdf, Rdiv. apply Rmult_comm. }
      evar_last; [apply (is_derive_scal (fun x => normal_cdf mu sigma x - normal_cdf mu sigma eps) x (/ (1 - normal_cdf mu sigma eps)))|].
      * apply (is_derive_minus (normal_cdf mu sigma) (fun _ => normal_cdf mu sigma eps)); [apply Hd|apply is_derive_const].
      * unfold minus, plus, opp, zero; cbn. unfold Rdiv. ring.
    + unfold tn_pdf. cbn [flt f0 RA]. destruct (Rltb_spec x eps); [lra|].
      rewrite tn_cdf_gauss_R. unfold tn_pdf_gauss. cbn [fsub fmul fdiv fofZ f1 RA].
      rewrite (mm_exp lm Hm), (mm_sqrt lm Hm), (mm_pow lm Hm), pow2.
      assert (Epi : 31415926535897932 / 10000000000000000 <= pi_lit (a:=RA) <= 31415926535897933 / 10000000000000000).
      { unfold pi_lit. rewrite (lit10_val _ 49 10000000000000000000000000000000000000000000000000) by reflexivity. lra. }
      pose proof PI_bounds as Bpi. set (p := pi_lit (a:=RA)) in *. clearbody p. change R in p.
      assert (El : lit10 (a:=RA) (-5) 1 = - / 2).
      { rewrite (lit10_val (-5) 1 10) by reflexivity. match goal with |- ?u = ?w => change (@eq R u w) end. field. }
      rewrite El.
      assert (Ee : exp (- / 2 * ((x - mu) / sigma * ((x - mu) / sigma))) = normal_density mu sigma x * (sigma * sqrt (2 * PI))).
      { unfold normal_density. replace (- / 2 * ((x - mu) / sigma * ((x - mu) / sigma))) with (- ((x - mu) * (x - mu)) / (2 * (sigma * sigma))) by (field; lra).
        field. lra. }
      match goal with |- context [exp ?u] => replace (exp u) with (normal_density mu sigma x * (sigma * sqrt (2 * PI))) by (symmetry; exact Ee) end.
      assert (Hq0 : 0 < sqrt (2 * p)) by (apply sqrt_lt_R0; lra).
      assert (Hq : Rabs (sqrt (2 * PI) - sqrt (2 * p)) <= / 10 ^ 15 * sqrt (2 * p)).
      { assert (Es : forall z, 0 <= z -> sqrt z * sqrt z = z) by (intros; now apply sqrt_sqrt).
        pose proof (Es (2 * PI) ltac:(lra)) as E1. pose proof (Es (2 * p) ltac:(lra)) as E2.
        assert (2 <= sqrt (2 * p)) by (apply Rle_trans with (sqrt (2 * 2)); [rewrite sqrt_square by lra; lra|apply sqrt_le_1_alt; lra]).
        assert (2 <= sqrt (2 * PI)) by (apply Rle_trans with (sqrt (2 * 2)); [rewrite sqrt_square by lra; lra|apply sqrt_le_1_alt; lra]).
        set (u := sqrt (2 * PI)) in *. set (v := sqrt (2 * p)) in *. clearbody u v.
        replace (/ 10 ^ 15) with (/ 1000000000000000) by (f_equal; ring).
        apply Rabs_le. split; apply Rnot_lt_le; intros Hlt; nra. }
      match goal with |- Rabs ?z <= _ => replace z with (normal_density mu sigma x / (1 - normal_cdf mu sigma eps) * ((sqrt (2 * PI) - sqrt (2 * p)) / sqrt (2 * p))) end.
      * rewrite Rabs_mult, (Rabs_right (_ / (1 - _))) by lra. rewrite Rmult_comm. apply Rmult_le_compat_r; [lra|].
        unfold Rdiv. rewrite Rabs_mult, (Rabs_right (/ _)) by (left; now apply Rinv_0_lt_compat).
        apply Rmult_le_reg_r with (sqrt (2 * p)); [exact Hq0|]. rewrite Rmult_assoc, Rinv_l, Rmult_1_r by lra. exact Hq.
      * match goal with |- ?u = ?w => change (@eq R u w) end. field. repeat split; lra.
  - unfold truncated_cdf. unfold Rdiv. rewrite Rminus_eq_0. ring.
  - apply (is_lim_ext (fun x => / (1 - normal_cdf mu sigma eps) * (normal_cdf mu sigma x - normal_cdf mu sigma eps))).
    { intros z. unfold truncated_cdf, Rdiv. apply Rmult_comm. }
    replace (Finite 1) with (Rbar_mult (/ (1 - normal_cdf mu sigma eps)) (1 - normal_cdf mu sigma eps)) by (cbn; f_equal; field; lra).
    apply (is_lim_scal_l (fun x => normal_cdf mu sigma x - normal_cdf mu sigma eps) _ p_infty (1 - normal_cdf mu sigma eps)).
    apply (is_lim_minus' (normal_cdf mu sigma) (fun _ => normal_cdf mu sigma eps) p_infty 1 _ Hl). apply is_lim_const.
Qed.

(** A draw is the quantile, up to that error, of the uniform number drawn. *)
Theorem C67_draw (g : Rng RA) mu sigma eps s : real_ok g -> 0 < sigma ->
  exists u, r_real g 0 1 s = (u, snd (tn_draw (a:=RA) lm g mu sigma eps s)) /\ 0 <= u < 1 /\
    Rabs (truncated_cdf mu sigma eps (fst (tn_draw (a:=RA) lm g mu sigma eps s)) - u) <= / 10 ^ 9 / (1 - normal_cdf mu sigma eps).
Proof using Hm.
  intros Hg Hs. unfold tn_draw. pose proof (Hg (f0 RA) (f1 RA) s) as H. cbn [flt fle f0 f1 RA] in *.
  assert (H01 : Rltb 0 1 = true) by (destruct (Rltb_spec 0 1); auto; lra). specialize (H H01) as [H1 H2].
  destruct (r_real g 0 1 s) as [u s'] eqn:E. cbn [fst snd] in *.
  destruct (Rleb_spec 0 u); [|discriminate]. destruct (Rltb_spec u 1); [|discriminate].
  exists u. split; [reflexivity|]. split; [lra|]. apply C67_inverse_cdf_always; auto; lra.
Qed.
End C67.

(** ** C68 *)
(** The bivariate normal distribution: whatever expectation makes n1 and n2 uncorrelated with mean 0
    and variance 1, the two components have mean 0, variance 1 and covariance [cov]. *)
Theorem C68_covariance (lm : Libm RA) (cov : R) {T} (Ex : (T -> R) -> R) (g : T -> Rng RA) (s : forall w, rst (g w)) :
  math_libm lm -> -1 <= cov <= 1 ->
  (forall f h, (forall w, f w = h w) -> Ex f = Ex h) ->
  (forall k f h, Ex (fun w => k * f w + h w) = k * Ex f + Ex h) ->
  let n1 := fun w => fst (r_normal (g w) (s w)) in
  let n2 := fun w => fst (r_normal (g w) (snd (r_normal (g w) (s w)))) in
  let r1 := fun w => fst (fst (bivariate_normal (a:=RA) lm (g w) cov (s w))) in
  let r2 := fun w => snd (fst (bivariate_normal (a:=RA) lm (g w) cov (s w))) in
  Ex n1 = 0 -> Ex n2 = 0 -> Ex (fun w => n1 w * n1 w) = 1 -> Ex (fun w => n2 w * n2 w) = 1 -> Ex (fun w => n1 w * n2 w) = 0 ->
  Ex r1 = 0 /\ Ex r2 = 0 /\ Ex (fun w => r1 w * r1 w) = 1 /\ Ex (fun w => r2 w * r2 w) = 1 /\ Ex (fun w => r1 w * r2 w) = cov.
Proof.
  intros Hm Hc Hext Hlin n1 n2 r1 r2 E1 E2 E11 E22 E12.
  assert (R1 : forall w, r1 w = n1 w).
  { intros w. unfold r1, n1, bivariate_normal. destruct (r_normal (g w) (s w)) as [a1 s1]. destruct (r_normal (g w) s1). reflexivity. }
  assert (R2 : forall w, r2 w = cov * n1 w + sqrt (1 - cov * cov) * n2 w).
  { intros w. unfold r2, n1, n2, bivariate_normal. rewrite (mm_sqrt lm Hm). destruct (r_normal (g w) (s w)) as [a1 s1]. cbn [fst snd].
    destruct (r_normal (g w) s1). reflexivity. }
  set (q := sqrt (1 - cov * cov)) in *. assert (Hq : q * q = 1 - cov * cov) by (apply sqrt_sqrt; nra). clearbody q.
  assert (Z : Ex (fun _ => 0) = 0). { pose proof (Hlin (-1) (fun _ => 0) (fun _ => 0)) as H. cbv beta in H. rewrite (Hext _ (fun _ => 0)) in H by (intros; ring). lra. }
  assert (L2 : forall k f l h, Ex (fun w => k * f w + l * h w) = k * Ex f + l * Ex h).
  { intros k f l h. rewrite Hlin. f_equal. rewrite (Hext _ (fun w => l * h w + 0)) by (intros; ring). rewrite (Hlin l h (fun _ => 0)), Z. ring. }
  split; [rewrite (Hext _ n1) by exact R1; exact E1|].
  split; [rewrite (Hext _ _ R2), L2, E1, E2; ring|].
  split; [rewrite (Hext _ (fun w => n1 w * n1 w)) by (intros; rewrite !R1; reflexivity); exact E11|].
  split.
  - rewrite (Hext _ (fun w => (cov * cov) * (n1 w * n1 w) + ((2 * cov * q) * (n1 w * n2 w) + (q * q) * (n2 w * n2 w)))) by (intros; rewrite !R2; ring).
    rewrite (Hlin (cov * cov) (fun w => n1 w * n1 w)), (L2 (2 * cov * q) (fun w => n1 w * n2 w) (q * q) (fun w => n2 w * n2 w)), E11, E12, E22, Hq. ring.
  - rewrite (Hext _ (fun w => cov * (n1 w * n1 w) + q * (n1 w * n2 w))) by (intros; rewrite !R1, !R2; ring).
    rewrite (L2 cov (fun w => n1 w * n1 w) q (fun w => n1 w * n2 w)), E11, E12. ring.
Qed.

(** The state of the generator when agent i is drawn: each agent takes one uniform and two normal numbers. *)
Fixpoint before_agent (g : Rng RA) (i : nat) (s : rst g) : rst g :=
  match i with O => s | S i => before_agent g i (snd (r_normal g (snd (r_normal g (snd (r_real g (-1) 1 s)))))) end.

Lemma some_eq {T} (x y : T) : Some x = Some y -> x = y. Proof. congruence. Qed.
Section C68.
Context (lm : Libm RA) (Hm : math_libm lm) (g : Rng RA) {A : Type} (ops : agent_ops (F RA) A) (st : ad_settings (F RA)).

Lemma drawn_nth : ops_ok ops -> mean_activities st = false -> use_reluctances st = true ->
  forall l s i x, nth_error (fst (drawn_agents lm g ops st l s)) i = Some x ->
  let s0 := before_agent g i s in
  let s1 := snd (r_real g (-1) 1 s0) in
  let n1 := fst (r_normal g s1) in
  let n2 := fst (r_normal g (snd (r_normal g s1))) in
  let c := covariance_factor st in
  get_opinion ops x = fst (r_real g (-1) 1 s0) /\
  get_activity ops x = power_law_inverse_cdf (a:=RA) lm (eps st) (gamma st) (Phi (a:=RA) lm n1) /\
  get_reluctance ops x = tn_inverse_cdf (a:=RA) lm (reluctance_mean st) (reluctance_sigma st) (reluctance_eps st)
                   (Phi (a:=RA) lm (c * n1 + lsqrt RA lm (1 - c * c) * n2)).
Proof.
  intros (O1 & O2 & O3 & O4 & O5 & O6 & O7 & O8 & O9) Hma Hur.
  induction l as [|y l IH]; intros s i x; cbn [drawn_agents]; [destruct i; discriminate|].
  change (fofZ RA (-1)) with (-1). change (fofZ RA 1) with 1. specialize (IH (snd (r_normal g (snd (r_normal g (snd (r_real g (-1) 1 s))))))).
  destruct i as [|i].
  - clear IH. cbv zeta. change (before_agent g 0 s) with s. destruct (r_real g (-1) 1 s) as [o s1]. cbn [fst snd].
    destruct (r_normal g s1) as [n1 s2]. cbn [fst snd]. destruct (r_normal g s2) as [n2 s3]. cbn [fst snd].
    destruct (drawn_agents lm g ops st l s3) as [t s4]. cbn [fst nth_error]. intros Hx.
    apply some_eq in Hx. rewrite Hma, Hur in Hx. subst x. cbv zeta. rewrite O7, O8, O9, O4, O5, O1. auto.
  - intros Hx. cbv zeta in *. cbn [before_agent].
    specialize (IH i x). apply IH. clear IH.
    destruct (r_real g (-1) 1 s) as [o s1]. cbn [fst snd] in *.
    destruct (r_normal g s1) as [n1 s2]. cbn [fst snd] in *. destruct (r_normal g s2) as [n2 s3]. cbn [fst snd] in *.
    destruct (drawn_agents lm g ops st l s3) as [t s4]. cbn [fst nth_error] in *. exact Hx.
Qed.

(** Every agent of a newly constructed model that is not a bot: its activity is exactly the power-law
    quantile of Phi(n1) and its reluctance is, up to 10^-9, the truncated normal quantile of Phi(z),
    where n1 and z = cov n1 + sqrt(1-cov^2) n2 come from the two normal numbers drawn for it. *)
Theorem C68_initial_agents d (h : network A (F RA)) s md s' i x :
  ops_ok ops -> mean_activities st = false -> use_reluctances st = true -> 0 < reluctance_sigma st ->
  0 < eps st < 1 -> 1 < gamma st ->
  wf h -> dir h = Incoming -> settings_fit st (n_agents h) ->
  (n_bots st <= n_agents h)%nat -> (n_bots st <= length (bot_opinion st))%nat -> (n_bots st <= length (bot_activity st))%nat ->
  ad_ctor (a:=RA) lm g ops d st h s = Ok (md, s') ->
  (n_bots st <= i)%nat -> nth_error (agents (ad_net md)) i = Some x ->
  let s0 := before_agent g i s in
  let s1 := snd (r_real g (-1) 1 s0) in
  let n1 := fst (r_normal g s1) in
  let n2 := fst (r_normal g (snd (r_normal g s1))) in
  let z := covariance_factor st * n1 + sqrt (1 - covariance_factor st * covariance_factor st) * n2 in
  get_opinion ops x = fst (r_real g (-1) 1 s0) /\
  pl_cdf (eps st) (gamma st) (get_activity ops x) = normal_cdf 0 1 n1 /\ eps st <= get_activity ops x <= 1 /\
  Rabs (truncated_cdf (reluctance_mean st) (reluctance_sigma st) (reluctance_eps st) (get_reluctance ops x) - normal_cdf 0 1 z)
    <= / 10 ^ 9 / (1 - normal_cdf (reluctance_mean st) (reluctance_sigma st) (reluctance_eps st)).
Proof using Hm.
  intros Ho Hma Hur Hsg Hep Hga Hw Hd Hf H1 H2 H3 E Hi Hx.
  destruct (ctor_ok (a:=RA) lm g ops d st h s Hw Hd Hf H1 H2 H3) as (md2 & s2 & E' & _ & _ & _ & Ea & _).
  rewrite E in E'. assert (md2 = md) by congruence. subst md2. rewrite Ea in Hx.
  assert (Hx' : nth_error (fst (drawn_agents lm g ops st (agents h) s)) i = Some x).
  { unfold with_bot_values in Hx. rewrite nth_error_map in Hx.
    destruct (nth_error (combine (seq 0 (length (fst (drawn_agents lm g ops st (agents h) s)))) (fst (drawn_agents lm g ops st (agents h) s))) i)
      as [[j y]|] eqn:Ec; [|discriminate].
    cbn [option_map fst snd] in Hx.
    assert (Hil : (i < length (fst (drawn_agents lm g ops st (agents h) s)))%nat).
    { assert (i < length (combine (seq 0 (length (fst (drawn_agents lm g ops st (agents h) s)))) (fst (drawn_agents lm g ops st (agents h) s))))%nat by (apply nth_error_Some; congruence).
      rewrite combine_length, seq_length in H. lia. }
    apply nth_error_nth with (d := (0%nat, y)) in Ec. rewrite combine_nth in Ec by now rewrite seq_length.
    assert (Ej : nth i (seq 0 (length (fst (drawn_agents lm g ops st (agents h) s)))) 0%nat = j) by congruence.
    assert (Ey : nth i (fst (drawn_agents lm g ops st (agents h) s)) y = y) by congruence.
    rewrite seq_nth in Ej by exact Hil. cbn [Nat.add] in Ej. subst j. rewrite (proj2 (Nat.ltb_ge _ _) Hi) in Hx. assert (y = x) by congruence. subst y.
    rewrite (nth_error_nth' _ x Hil). f_equal. exact Ey. }
  destruct (drawn_nth Ho Hma Hur (agents h) s i x Hx') as (G1 & G2 & G3).
  intros s0 s1 n1 n2 z. fold s0 in G1, G2, G3. fold s1 in G2, G3. fold n1 in G2, G3. fold n2 in G3.
  assert (Hn01 : forall w, 0 < normal_cdf 0 1 w < 1) by (apply (C67_normal_cdf 0 1 ltac:(lra))).
  split; [exact G1|]. rewrite G2, G3. rewrite !(Phi_R lm Hm), (mm_sqrt lm Hm).
  destruct (C47_inverse_cdf lm (mm_pow lm Hm) (eps st) (gamma st) Hep Hga) as (Q1 & _).
  destruct (Q1 (normal_cdf 0 1 n1) ltac:(specialize (Hn01 n1); lra)) as [Q2 Q3].
  split; [exact Q3|]. split; [exact Q2|].
  apply (C67_inverse_cdf_always lm Hm); [exact Hsg|]. specialize (Hn01 z). unfold z in *. lra.
Qed.
End C68.

(** ** Non-vacuity *)
Definition math_lm : Libm RA := mkLibm RA Rpow ln tanh sqrt Erf (fun x => ln (1 + x)) exp.
Lemma math_lm_ok : math_libm math_lm.
Proof. split; reflexivity. Qed.
Example C66_instance : Rabs (Erf (erfinv (a:=RA) math_lm (99 / 100)) - 99 / 100) <= / 10 ^ 11.
Proof.
  eapply Rle_trans; [apply (C66_erfinv_inverts_erf math_lm math_lm_ok (99 / 100)); [lra|]|].
  - rewrite Rabs_right by lra. assert (/ 10 ^ 250 <= / 10 ^ 2); [|lra].
    apply Rinv_le_contravar; [apply pow_lt; lra|]. apply Rle_pow; [lra|lia].
  - rewrite Rabs_right by lra. replace (/ 10 ^ 11) with (/ 10 ^ 9 * (1 - 99 / 100)) by (cbn; field). lra.
Qed.
(** Truncated at the mean: the median is the upper quartile. *)
Lemma cdf_mean mu sigma : 0 < sigma -> normal_cdf mu sigma mu = / 2.
Proof. intros H. unfold normal_cdf. rewrite Rminus_eq_0. unfold Rdiv. rewrite Rmult_0_l, Erf_0. lra. Qed.
Example C67_instance : Rabs (truncated_cdf 1 (1 / 4) 1 (tn_inverse_cdf (a:=RA) math_lm 1 (1 / 4) 1 (1 / 2)) - 1 / 2) <= / 10 ^ 9.
Proof.
  assert (Ht : / 10 ^ 250 <= / 10 ^ 2) by (apply Rinv_le_contravar; [apply pow_lt; lra|apply Rle_pow; [lra|lia]]).
  eapply Rle_trans; [apply (C67_inverse_cdf math_lm math_lm_ok 1 (1 / 4) 1 (1 / 2)); rewrite ?cdf_mean by lra; lra|].
  assert (0 < / 10 ^ 9) by (apply Rinv_0_lt_compat, pow_lt; lra). lra.
Qed.
(** The hypotheses of C68_initial_agents hold for the demo model with reluctances. *)
Definition rel_settings : ad_settings R :=
  mkADS None (1/10) 1 (1/100) (21/10) 3 (1/2) 1 3 false false
        2 [1; 0]%Z [1; 1] [5; -5] [0; 0] true 1 (1/4) (1/100) (1/2).
Lemma rel_fit : settings_fit (a:=RA) rel_settings (n_agents demo_net).
Proof. repeat split; cbn; try lia; destruct i as [|[|?]]; cbn in *; try lia. Qed.
Example C68_instance : exists md s' x, ad_ctor (a:=RA) math_lm mid_real_rng (activity_ops R) (mkActivity 0 0 1) rel_settings demo_net tt = Ok (md, s') /\
  nth_error (agents (ad_net md)) 2 = Some x /\
  pl_cdf (1 / 100) (21 / 10) (a_activity x) = normal_cdf 0 1 (fst (r_normal mid_real_rng tt)) /\
  Rabs (truncated_cdf 1 (1 / 4) (1 / 100) (a_reluctance x)
        - normal_cdf 0 1 (1 / 2 * fst (r_normal mid_real_rng tt) + sqrt (1 - 1 / 2 * (1 / 2)) * fst (r_normal mid_real_rng tt)))
    <= / 10 ^ 9 / (1 - normal_cdf 1 (1 / 4) (1 / 100)).
Proof.
  destruct (ctor_ok (a:=RA) math_lm mid_real_rng (activity_ops R) (mkActivity 0 0 1)%R rel_settings demo_net tt
    demo_wf eq_refl rel_fit) as (md & s' & E & _ & _ & _ & Ea & _); cbn; try lia.
  assert (L : (2 < length (agents (ad_net md)))%nat).
  { rewrite Ea, with_bot_values_length, drawn_agents_length. cbn. lia. }
  destruct (nth_error (agents (ad_net md)) 2) as [x|] eqn:Ex; [|apply nth_error_None in Ex; lia].
  exists md, s', x. split; [exact E|]. split; [exact Ex|].
  destruct (C68_initial_agents math_lm math_lm_ok mid_real_rng (activity_ops (F RA)) rel_settings (mkActivity 0 0 1) demo_net tt md s' 2 x)
    as (_ & G2 & _ & G4); auto using activity_ops_ok, demo_wf, rel_fit; cbn; try lia; try lra.
Qed.

Print Assumptions C66_erfinv_inverts_erf.
Print Assumptions C66_erfinv_inverts_erf_ext.
Print Assumptions C67_inverse_cdf.
Print Assumptions C67_pdf.
Print Assumptions C68_covariance.
Print Assumptions C68_initial_agents.
