(** Tools for the accuracy of erfinv: functions with a small logarithmic derivative, and the
    derivative of Erf after a rational function. *)
From Coq Require Import ZArith List Bool Lia.
From Coq Require Import Reals Lra Psatz.
From Coquelicot Require Import Coquelicot.
From Verif Require Import SGauss PGauss PPoly.
Local Open Scope R_scope.

(** f' = f L with |L| <= eps: f varies by at most a factor exp (eps (b-a)). *)
Lemma log_deriv_bound (f L : R -> R) a b eps :
  (forall x, a <= x <= b -> 0 < f x) -> (forall x, a <= x <= b -> is_derive f x (f x * L x)) ->
  (forall x, a <= x <= b -> Rabs (L x) <= eps) ->
  forall x y, a <= x <= b -> a <= y <= b -> f x <= f y * exp (eps * (b - a)).
Proof.
  intros Hp Hd HL x y Hx Hy.
  assert (He : 0 <= eps) by (eapply Rle_trans; [apply Rabs_pos|apply (HL x Hx)]).
  assert (Hl : forall z, a <= z <= b -> is_derive (fun z => ln (f z)) z (L z)).
  { intros z Hz. evar_last.
    - apply (is_derive_comp ln f z (/ f z) (f z * L z)); [|apply Hd, Hz]. apply is_derive_Reals, derivable_pt_lim_ln, Hp, Hz.
    - unfold scal; cbn. unfold mult; cbn. pose proof (Hp z Hz). field. lra. }
  assert (H : Rabs (ln (f x) - ln (f y)) <= eps * (b - a)).
  { destruct (MVT_gen (fun z => ln (f z)) y x L) as (c & Hc & Ec).
    - intros z Hz. apply Hl. unfold Rmin, Rmax in Hz. destruct (Rle_dec y x); lra.
    - intros z Hz. apply continuity_pt_filterlim, (ex_derive_continuous (fun z => ln (f z))). eexists. apply Hl.
      unfold Rmin, Rmax in Hz. destruct (Rle_dec y x); lra.
    - rewrite Ec, Rabs_mult. apply Rmult_le_compat; try apply Rabs_pos.
      + apply HL. unfold Rmin, Rmax in Hc. destruct (Rle_dec y x); lra.
      + apply Rabs_le. lra. }
  assert (ln (f x) <= ln (f y) + eps * (b - a)) by (apply Rabs_le_between in H; lra).
  rewrite <- (exp_ln (f x)), <- (exp_ln (f y)) by auto. rewrite <- exp_plus.
  destruct H0 as [H0|H0]; [left; now apply exp_increasing|right; now rewrite H0].
Qed.

(** ... so it stays close to 1 if it is close to 1 somewhere. *)
Lemma near_one (f L : R -> R) a b eps c d0 d :
  (forall x, a <= x <= b -> 0 < f x) -> (forall x, a <= x <= b -> is_derive f x (f x * L x)) ->
  (forall x, a <= x <= b -> Rabs (L x) <= eps) ->
  a <= c <= b -> Rabs (f c - 1) <= d0 -> 0 <= d0 -> 0 <= d < 1 -> d0 + 2 * (eps * (b - a)) <= d - d0 * d -> 
  forall x, a <= x <= b -> Rabs (f x - 1) <= d.
Proof.
  intros Hp Hd HL Hc Hf Hd0 Hd1 Hb x Hx.
  pose proof (log_deriv_bound f L a b eps Hp Hd HL x c Hx Hc) as H1.
  pose proof (log_deriv_bound f L a b eps Hp Hd HL c x Hc Hx) as H2.
  assert (He : 0 <= eps) by (eapply Rle_trans; [apply Rabs_pos|apply (HL x Hx)]).
  set (e := eps * (b - a)) in *. assert (He0 : 0 <= e) by (unfold e; apply Rmult_le_pos; lra).
  apply Rabs_le_between in Hf. pose proof (Hp x Hx). pose proof (Hp c Hc).
  assert (He2 : exp e * (1 - e) <= 1).
  { pose proof (exp_ineq1_le (- e)). rewrite exp_Ropp in H3. pose proof (exp_pos e).
    apply Rmult_le_reg_r with (/ exp e); [now apply Rinv_0_lt_compat|]. replace (exp e * (1 - e) * / exp e) with (1 - e) by (field; lra). lra. }
  pose proof (exp_pos e) as Hee.
  assert (e < 1 / 2) by nra.
  assert (Hup : exp e <= 1 + 2 * e). { apply Rmult_le_reg_r with (1 - e); [lra|]. nra. }
  apply Rabs_le. split.
  - assert (1 - d0 <= f x * (1 + 2 * e)). { eapply Rle_trans; [|apply Rmult_le_compat_l; [lra|exact Hup]]. lra. }
    nra.
  - assert (f x <= (1 + d0) * (1 + 2 * e)). { eapply Rle_trans; [exact H1|]. apply Rmult_le_compat; lra. }
    nra.
Qed.

(** Two functions whose derivatives are proportional up to 1 +- d. *)
Lemma compare_increments (T S f dS : R -> R) a b d : a <= b ->
  (forall x, a <= x <= b -> is_derive S x (dS x)) -> (forall x, a <= x <= b -> is_derive T x (f x * dS x)) ->
  (forall x, a <= x <= b -> 0 <= dS x) -> (forall x, a <= x <= b -> Rabs (f x - 1) <= d) ->
  Rabs ((T b - T a) - (S b - S a)) <= d * (S b - S a).
Proof.
  intros [Hab| ->] HS HT HdS Hf; [|replace (T b - T b - (S b - S b)) with 0 by ring; rewrite Rabs_R0; lra].
  assert (K : forall k, (forall x, a <= x <= b -> 0 <= (k x - 1) + d) -> (forall x, a <= x <= b -> is_derive T x (k x * dS x)) -> (T b - T a) - (S b - S a) >= - d * (S b - S a)).
  { intros k Hk HTk. destruct (MVT_cor2 (fun x => T x - (1 - d) * S x) (fun x => k x * dS x - (1 - d) * dS x) a b Hab) as (c & Ec & Hc).
    - intros x Hx. apply is_derive_Reals. apply (is_derive_minus T (fun x => (1 - d) * S x)); [now apply HTk|].
      now apply (is_derive_scal S x (1 - d)), HS.
    - specialize (Hk c ltac:(lra)). specialize (HdS c ltac:(lra)).
      assert (0 <= (k c * dS c - (1 - d) * dS c) * (b - a)). { apply Rmult_le_pos; [|lra]. nra. } lra. }
  assert (K2 : (T b - T a) - (S b - S a) <= d * (S b - S a)).
  { destruct (MVT_cor2 (fun x => (1 + d) * S x - T x) (fun x => (1 + d) * dS x - f x * dS x) a b Hab) as (c & Ec & Hc).
    - intros x Hx. apply is_derive_Reals. apply (is_derive_minus (fun x => (1 + d) * S x) T); [|now apply HT].
      now apply (is_derive_scal S x (1 + d)), HS.
    - specialize (Hf c ltac:(lra)). specialize (HdS c ltac:(lra)). apply Rabs_le_between in Hf.
      assert (0 <= ((1 + d) * dS c - f c * dS c) * (b - a)). { apply Rmult_le_pos; [|lra]. nra. } lra. }
  apply Rabs_le. split; [|exact K2].
  specialize (K f). assert ((T b - T a) - (S b - S a) >= - d * (S b - S a)); [|lra].
  apply K; [|exact HT]. intros x Hx. specialize (Hf x Hx). apply Rabs_le_between in Hf. lra.
Qed.

Section Rational.
Context (A B : list Z).
Definition rat (x : R) : R := peval A x / peval B x.
Definition wron : list Z := psub (pmul (pder A) B) (pmul A (pder B)).

Lemma rat_derive x : peval B x <> 0 -> is_derive rat x (peval wron x / (peval B x * peval B x)).
Proof.
  intros HB. unfold rat. evar_last.
  - apply (is_derive_div (peval A) (peval B) x _ _ (peval_der A x) (peval_der B x) HB).
  - unfold wron. rewrite peval_sub, !peval_mul. field. exact HB.
Qed.

(** Center: the derivative of Erf (rat x). *)
Definition fc (x : R) : R := 2 / sqrt PI * exp (- (rat x * rat x)) * (peval wron x / (peval B x * peval B x)).
Definition lc (x : R) : R :=
  (peval (pder wron) x * peval B x - 2 * peval wron x * peval (pder B) x) / (peval wron x * peval B x)
  - 2 * (peval A x * peval wron x / (peval B x * peval B x * peval B x)).

Lemma erf_rat_derive x : peval B x <> 0 -> is_derive (fun x => Erf (rat x)) x (fc x).
Proof.
  intros HB. evar_last.
  - apply (is_derive_comp Erf rat x); [apply Erf_derive|now apply rat_derive].
  - unfold fc, scal; cbn. unfold mult; cbn. ring.
Qed.

Lemma D_poly p x : Derive (fun y : R => peval p y) x = peval (pder p) x.
Proof. apply is_derive_unique, peval_der. Qed.
Lemma ex_poly p x : ex_derive (fun y : R => peval p y) x.
Proof. eexists; apply peval_der. Qed.

Lemma der_wron x : peval B x <> 0 -> peval (pder A) x = (peval wron x + peval A x * peval (pder B) x) / peval B x.
Proof. intros HB. unfold wron. rewrite peval_sub, !peval_mul. field. exact HB. Qed.

Lemma fc_derive x : peval B x <> 0 -> peval wron x <> 0 -> is_derive fc x (fc x * lc x).
Proof.
  intros HB HW. unfold fc, lc, rat. auto_derive.
  - repeat split; try apply ex_poly; auto using Rmult_integral_contrapositive_currified.
  - rewrite !D_poly, (der_wron x HB). pose proof sqrt_PI_pos. unfold Rdiv.
    match goal with |- context [exp ?u] => generalize (exp u) end. intros ex. field. repeat split; auto; lra.
Qed.

(** Tails: rho = o + s, 1 - x = k exp (-rho^2). *)
Context (o k : R).
Definition ft (s : R) : R :=
  / (sqrt PI * k) * exp ((o + s) * (o + s) - rat s * rat s) * (peval wron s / (peval B s * peval B s)) / (o + s).
Definition lt_ (s : R) : R := lc s + 2 * (o + s) - / (o + s).
Definition dx (s : R) : R := 2 * k * (o + s) * exp (- ((o + s) * (o + s))).

Lemma ft_derive s : peval B s <> 0 -> peval wron s <> 0 -> 0 < o + s -> k <> 0 -> is_derive ft s (ft s * lt_ s).
Proof.
  intros HB HW Ho Hk. unfold ft, lt_, lc, rat. auto_derive.
  - repeat split; try apply ex_poly; auto using Rmult_integral_contrapositive_currified; try lra.
  - rewrite !D_poly, (der_wron s HB). pose proof sqrt_PI_pos. unfold Rdiv, Rminus.
    match goal with |- context [exp ?u] => generalize (exp u) end. intros ex. field. repeat split; auto; lra.
Qed.
Lemma erf_rat_derive_t s : peval B s <> 0 -> 0 < o + s -> k <> 0 -> is_derive (fun s => Erf (rat s)) s (ft s * dx s).
Proof.
  intros HB Ho Hk. evar_last; [now apply erf_rat_derive|].
  unfold fc, ft, dx. pose proof sqrt_PI_pos.
  replace ((o + s) * (o + s) - rat s * rat s) with ((o + s) * (o + s) + - (rat s * rat s)) by ring.
  rewrite exp_plus, (exp_Ropp ((o + s) * (o + s))). pose proof (exp_pos ((o + s) * (o + s))). field. repeat split; auto; lra.
Qed.
Lemma x_derive s : is_derive (fun s => 1 - k * exp (- ((o + s) * (o + s)))) s (dx s).
Proof. unfold dx. auto_derive; [auto|]. ring. Qed.

(** The polynomial inequality; W is [wron], o = on/od. *)
Context (on od : Z).
Definition rho_p : list Z := on :: od :: nil.
Definition lcn (W : list Z) : list Z :=
  psub (pmul (psub (pmul (pder W) B) (pscale 2 (pmul W (pder B)))) (pmul B B)) (pscale 2 (pmul A (pmul W W))).
Definition lcd (W : list Z) : list Z := pmul W (pmul B (pmul B B)).
Definition ltn (N D : list Z) : list Z :=
  psub (padd (pscale od (pmul rho_p N)) (pscale 2 (pmul (pmul rho_p rho_p) D))) (pscale (od * od) D).
Definition ltd (D : list Z) : list Z := pscale od (pmul rho_p D).
Lemma lc_quot x : peval B x <> 0 -> peval wron x <> 0 -> lc x = peval (lcn wron) x / peval (lcd wron) x.
Proof.
  intros HB HW. unfold lc, lcn, lcd. rewrite !peval_sub, !peval_scale, !peval_mul, !peval_sub, !peval_scale, !peval_mul. field.
  repeat split; auto.
Qed.
Lemma lt_bound e s : 0 < peval B s -> (0 < e)%Z -> (0 < od)%Z -> o = IZR on / IZR od -> 0 < o + s ->
  0 < peval (ltd (lcd wron)) s -> IZR e * Rabs (peval (ltn (lcn wron) (lcd wron)) s) <= peval (ltd (lcd wron)) s ->
  0 < peval wron s /\ Rabs (lt_ s) <= / IZR e.
Proof.
  intros HB He Ho Eo Hs H1 H2. apply IZR_lt in Ho. apply IZR_lt in He.
  assert (Er : peval rho_p s = IZR od * (o + s)) by (rewrite Eo; cbn; field; lra).
  assert (Hr : 0 < peval rho_p s) by (rewrite Er; now apply Rmult_lt_0_compat).
  assert (HW : 0 < peval wron s).
  { unfold ltd, lcd in H1. rewrite peval_scale, !peval_mul in H1.
    apply Rmult_lt_reg_l with (IZR od * peval rho_p s * (peval B s * (peval B s * peval B s))).
    - repeat apply Rmult_lt_0_compat; assumption.
    - rewrite Rmult_0_r. eapply Rlt_le_trans; [exact H1|]. right. ring. }
  split; [exact HW|].
  assert (Hd : 0 < peval (lcd wron) s) by (unfold lcd; rewrite !peval_mul; repeat apply Rmult_lt_0_compat; assumption).
  assert (Eq : lt_ s = peval (ltn (lcn wron) (lcd wron)) s / peval (ltd (lcd wron)) s).
  { unfold lt_. rewrite lc_quot by lra. unfold ltn, ltd. rewrite peval_sub, peval_add, !peval_scale, !peval_mul, Er, mult_IZR. field. lra. }
  rewrite Eq. unfold Rdiv. rewrite Rabs_mult, (Rabs_right (/ peval _ _)) by (left; now apply Rinv_0_lt_compat).
  apply Rmult_le_reg_r with (peval (ltd (lcd wron)) s); [exact H1|]. rewrite Rmult_assoc, Rinv_l, Rmult_1_r by lra.
  apply Rmult_le_reg_l with (IZR e); [exact He|]. rewrite <- Rmult_assoc, Rinv_r, Rmult_1_l by lra. exact H2.
Qed.
End Rational.

(** ** The center: x P(r)/Q(r) with r = (289 - 400 x^2)/1600 *)
Section Center.
Context (P Q : list Z).
Definition rr (x : R) : R := (289 - 400 * (x * x)) / 1600.
Definition cen (x : R) : R := x * peval P (rr x) / peval Q (rr x).
Definition cw : list Z :=
  psub (pscale 800 (pmul P Q)) (pmul (289 :: -1600 :: nil)%Z (psub (pmul (pder P) Q) (pmul P (pder Q)))).
Definition fcen (x : R) : R := 2 / sqrt PI * exp (- (cen x * cen x)) * (peval cw (rr x) / (800 * (peval Q (rr x) * peval Q (rr x)))).
Definition lcen (x : R) : R :=
  x * (- ((peval (pder cw) (rr x) * peval Q (rr x) - 2 * peval cw (rr x) * peval (pder Q) (rr x)) / (2 * peval cw (rr x) * peval Q (rr x)))
       - peval P (rr x) * peval cw (rr x) / (400 * (peval Q (rr x) * (peval Q (rr x) * peval Q (rr x))))).

Lemma poly_rr p x : is_derive (fun x => peval p (rr x)) x (- (x / 2) * peval (pder p) (rr x)).
Proof.
  evar_last.
  - apply (is_derive_comp (peval p) rr x (peval (pder p) (rr x)) (- (x / 2))); [apply peval_der|].
    unfold rr. auto_derive; [auto|]. field.
  - unfold scal; cbn. unfold mult; cbn. ring.
Qed.
Lemma D_rr p x : Derive (fun y : R => peval p (rr y)) x = - (x / 2) * peval (pder p) (rr x).
Proof. apply is_derive_unique, poly_rr. Qed.
Lemma ex_rr p x : ex_derive (fun y : R => peval p (rr y)) x.
Proof. eexists; apply poly_rr. Qed.
Lemma cw_eval x : peval cw (rr x) = 800 * (peval P (rr x) * peval Q (rr x))
  - 400 * (x * x) * (peval (pder P) (rr x) * peval Q (rr x) - peval P (rr x) * peval (pder Q) (rr x)).
Proof.
  unfold cw. rewrite peval_sub, peval_scale, !peval_mul, peval_sub, !peval_mul.
  replace (peval (289 :: -1600 :: nil)%Z (rr x)) with (400 * (x * x)) by (unfold rr; cbn; field). ring.
Qed.
Lemma cen_derive x : peval Q (rr x) <> 0 -> is_derive cen x (peval cw (rr x) / (800 * (peval Q (rr x) * peval Q (rr x)))).
Proof.
  intros HQ. unfold cen. evar_last.
  - apply (is_derive_div (fun x => x * peval P (rr x)) (fun x => peval Q (rr x)) x (1 * peval P (rr x) + x * (- (x / 2) * peval (pder P) (rr x))) (- (x / 2) * peval (pder Q) (rr x)));
      [|apply poly_rr|exact HQ].
    apply (is_derive_mult (fun y : R => y) (fun x => peval P (rr x)) x 1); [exact (is_derive_id x)|apply poly_rr|intros; apply Rmult_comm].
  - rewrite cw_eval. field. exact HQ.
Qed.
Lemma erf_cen_derive x : peval Q (rr x) <> 0 -> is_derive (fun x => Erf (cen x)) x (fcen x).
Proof.
  intros HQ. evar_last.
  - apply (is_derive_comp Erf cen x); [apply Erf_derive|now apply cen_derive].
  - unfold fcen, scal; cbn. unfold mult; cbn. ring.
Qed.
Lemma gen_derive (c w q : R -> R) k x c' w' q' : is_derive c x c' -> is_derive w x w' -> is_derive q x q' -> q x <> 0 -> w x <> 0 ->
  is_derive (fun x => k * exp (- (c x * c x)) * (w x / (800 * (q x * q x)))) x
    (k * exp (- (c x * c x)) * (w x / (800 * (q x * q x))) * (w' / w x - 2 * (q' / q x) - 2 * (c x * c'))).
Proof.
  intros Hc Hw Hq Hq0 Hw0. auto_derive.
  - assert (800 * (q x * q x) <> 0) by (apply Rmult_integral_contrapositive_currified; [lra|now apply Rmult_integral_contrapositive_currified]).
    assert (ex_derive c x) by (eexists; exact Hc). assert (ex_derive w x) by (eexists; exact Hw). assert (ex_derive q x) by (eexists; exact Hq). tauto.
  - replace (Derive (fun x => c x) x) with c' by (symmetry; apply is_derive_unique; exact Hc).
    replace (Derive (fun x => w x) x) with w' by (symmetry; apply is_derive_unique; exact Hw).
    replace (Derive (fun x => q x) x) with q' by (symmetry; apply is_derive_unique; exact Hq).
    generalize (exp (- (c x * c x))). intros ex. field. auto.
Qed.
Lemma fcen_derive x : peval Q (rr x) <> 0 -> peval cw (rr x) <> 0 -> is_derive fcen x (fcen x * lcen x).
Proof.
  intros HQ HW. evar_last.
  - apply (gen_derive cen (fun x => peval cw (rr x)) (fun x => peval Q (rr x)) (2 / sqrt PI) x _ _ _ (cen_derive x HQ) (poly_rr cw x) (poly_rr Q x) HQ HW).
  - cbv beta. fold (fcen x). f_equal. unfold lcen, cen. field. auto.
Qed.
(** The polynomial inequality; W is [cw]. *)
Definition ccn (W : list Z) : list Z :=
  psub (pscale (-200) (pmul (psub (pmul (pder W) Q) (pscale 2 (pmul W (pder Q)))) (pmul Q Q))) (pmul P (pmul W W)).
Definition ccd (W : list Z) : list Z := pscale 400 (pmul W (pmul Q (pmul Q Q))).
Lemma lcen_bound e x : 0 < peval Q (rr x) -> (0 < e)%Z -> 0 <= x <= 1 ->
  0 < peval (ccd cw) (rr x) -> IZR e * Rabs (peval (ccn cw) (rr x)) <= peval (ccd cw) (rr x) ->
  0 < peval cw (rr x) /\ Rabs (lcen x) <= / IZR e.
Proof.
  intros HQ He Hx H1 H2. apply IZR_lt in He.
  assert (HW : 0 < peval cw (rr x)).
  { unfold ccd in H1. rewrite peval_scale, !peval_mul in H1.
    apply Rmult_lt_reg_l with (400 * (peval Q (rr x) * (peval Q (rr x) * peval Q (rr x)))).
    - repeat apply Rmult_lt_0_compat; lra.
    - rewrite Rmult_0_r. eapply Rlt_le_trans; [exact H1|]. right. ring. }
  split; [exact HW|].
  assert (Eq : lcen x = x * (peval (ccn cw) (rr x) / peval (ccd cw) (rr x))).
  { unfold lcen, ccn, ccd. rewrite peval_sub, !peval_scale, !peval_mul, peval_sub, peval_scale, !peval_mul. field. lra. }
  rewrite Eq, Rabs_mult, (Rabs_right x) by lra.
  assert (Hq : Rabs (peval (ccn cw) (rr x) / peval (ccd cw) (rr x)) <= / IZR e).
  { unfold Rdiv. rewrite Rabs_mult, (Rabs_right (/ peval _ _)) by (left; now apply Rinv_0_lt_compat).
    apply Rmult_le_reg_r with (peval (ccd cw) (rr x)); [exact H1|]. rewrite Rmult_assoc, Rinv_l, Rmult_1_r by lra.
    apply Rmult_le_reg_l with (IZR e); [exact He|]. rewrite <- Rmult_assoc, Rinv_r, Rmult_1_l by lra. exact H2. }
  pose proof (Rabs_pos (peval (ccn cw) (rr x) / peval (ccd cw) (rr x))). nra.
Qed.
End Center.
