(** Power law distribution in exact arithmetic. *)
From Verif Require Import Base Arith64 RFacts MRandom MDist SDist.
From Coq Require Import Reals Lra Psatz.
From Coquelicot Require Import Coquelicot.
Local Open Scope R_scope.

Section PowerLaw.
Variables eps gamma : R.
Hypothesis Heps : 0 < eps < 1.
Hypothesis Hgamma : 1 < gamma.

Lemma Rpower_base1 y : Rpower 1 y = 1.
Proof. unfold Rpower. rewrite ln_1, Rmult_0_r. apply exp_0. Qed.
Lemma ln_eps_neg x : 0 < x < 1 -> ln x < 0.
Proof. intros H. rewrite <- ln_1. apply ln_increasing; lra. Qed.
Lemma Rpower_neg_gt x y : 0 < x < 1 -> y < 0 -> 1 < Rpower x y.
Proof.
  intros Hx Hy. unfold Rpower. rewrite <- exp_0 at 1. apply exp_increasing. pose proof (ln_eps_neg x Hx). nra.
Qed.
Lemma Rpower_neg_mono x y e : 0 < x -> x < y -> e < 0 -> Rpower y e < Rpower x e.
Proof.
  intros Hx Hy He. unfold Rpower. apply exp_increasing. pose proof (ln_increasing x y Hx Hy). nra.
Qed.

Definition c := Rpower eps (1 - gamma).
Lemma c_gt : 1 < c.
Proof. apply Rpower_neg_gt; lra. Qed.
Lemma Rpow_pos_base x y : 0 < x -> Rpow x y = Rpower x y.
Proof. intros H. unfold Rpow. destruct (Rlt_dec 0 x); [reflexivity|lra]. Qed.

Lemma inverse_cdf_R (lm : Libm RA) u : lpow RA lm = Rpow -> 0 <= u <= 1 ->
  power_law_inverse_cdf (a:=RA) lm eps gamma u = Rpower ((1 - c) * u + c) (1 / (1 - gamma)).
Proof.
  intros Hp Hu. unfold power_law_inverse_cdf. cbn [fadd fsub fmul fdiv f1 RA]. rewrite Hp.
  rewrite (Rpow_pos_base eps) by lra. fold c. pose proof c_gt. rewrite Rpow_pos_base by nra. reflexivity.
Qed.

Lemma base_range u : 0 <= u <= 1 -> 1 <= (1 - c) * u + c <= c.
Proof. pose proof c_gt. intros H0. split; nra. Qed.
Lemma root_c : Rpower c (1 / (1 - gamma)) = eps.
Proof.
  unfold c. rewrite Rpower_mult. replace ((1 - gamma) * (1 / (1 - gamma))) with 1 by (field; lra). apply Rpower_1. lra.
Qed.
Lemma expo_neg : 1 / (1 - gamma) < 0.
Proof. unfold Rdiv. rewrite Rmult_1_l. apply Rinv_lt_0_compat. lra. Qed.

Lemma inv_R_mono u v : 0 <= u <= 1 -> 0 <= v <= 1 -> u < v ->
  Rpower ((1 - c) * u + c) (1 / (1 - gamma)) < Rpower ((1 - c) * v + c) (1 / (1 - gamma)).
Proof.
  intros Hu Hv H. pose proof c_gt. pose proof (base_range v Hv).
  apply Rpower_neg_mono; [lra|nra|apply expo_neg].
Qed.
Lemma inv_R_0 : Rpower ((1 - c) * 0 + c) (1 / (1 - gamma)) = eps.
Proof. replace ((1 - c) * 0 + c) with c by ring. apply root_c. Qed.
Lemma inv_R_1 : Rpower ((1 - c) * 1 + c) (1 / (1 - gamma)) = 1.
Proof. replace ((1 - c) * 1 + c) with 1 by ring. apply Rpower_base1. Qed.
Lemma inv_R_range u : 0 <= u <= 1 -> eps <= Rpower ((1 - c) * u + c) (1 / (1 - gamma)) <= 1.
Proof.
  intros Hu. split.
  - destruct (Rtotal_order 0 u) as [H|[<-|H]]; [|rewrite inv_R_0; lra|lra].
    left. eapply Rle_lt_trans; [|apply (inv_R_mono 0 u); lra]. rewrite inv_R_0. lra.
  - destruct (Rtotal_order u 1) as [H|[->|H]]; [|rewrite inv_R_1; lra|lra].
    left. eapply Rlt_le_trans; [apply (inv_R_mono u 1); lra|]. rewrite inv_R_1. lra.
Qed.
Lemma cdf_inv u : 0 <= u <= 1 -> pl_cdf eps gamma (Rpower ((1 - c) * u + c) (1 / (1 - gamma))) = u.
Proof.
  intros Hu. unfold pl_cdf. rewrite Rpower_mult. replace (1 / (1 - gamma) * (1 - gamma)) with 1 by (field; lra).
  pose proof (base_range u Hu). rewrite Rpower_1 by lra. fold c. pose proof c_gt. field. lra.
Qed.
Lemma cdf_range x : eps <= x <= 1 -> 0 <= pl_cdf eps gamma x <= 1.
Proof.
  intros Hx. unfold pl_cdf. fold c. pose proof c_gt as Hc.
  assert (H1 : 1 <= Rpower x (1 - gamma)).
  { destruct (Req_dec x 1) as [->|Hne]; [rewrite Rpower_base1; lra|]. left. apply Rpower_neg_gt; lra. }
  assert (H2 : Rpower x (1 - gamma) <= c).
  { destruct (Req_dec x eps) as [->|Hne]; [unfold c; lra|]. left. apply Rpower_neg_mono; lra. }
  replace ((Rpower x (1 - gamma) - c) / (1 - c)) with ((c - Rpower x (1 - gamma)) / (c - 1)) by (field; lra).
  split.
  - apply Rmult_le_pos; [lra|]. left. apply Rinv_0_lt_compat. lra.
  - apply Rmult_le_reg_r with (c - 1); [lra|]. unfold Rdiv. rewrite Rmult_assoc, Rinv_l by lra. lra.
Qed.
Lemma inv_cdf x : eps <= x <= 1 -> Rpower ((1 - c) * pl_cdf eps gamma x + c) (1 / (1 - gamma)) = x.
Proof.
  intros Hx. unfold pl_cdf. fold c. pose proof c_gt as Hc.
  replace ((1 - c) * ((Rpower x (1 - gamma) - c) / (1 - c)) + c) with (Rpower x (1 - gamma)) by (field; lra).
  rewrite Rpower_mult. replace ((1 - gamma) * (1 / (1 - gamma))) with 1 by (field; lra). apply Rpower_1. lra.
Qed.

(** derivative of x^e *)
Lemma is_derive_Rpower x e : 0 < x -> is_derive (fun x => Rpower x e) x (e * Rpower x (e - 1)).
Proof. intros Hx. apply is_derive_Reals. now apply derivable_pt_lim_power. Qed.

Lemma cdf_derive x : 0 < x -> is_derive (pl_cdf eps gamma) x (pl_density eps gamma x).
Proof.
  intros Hx. pose proof c_gt as Hc. unfold pl_cdf. fold c.
  apply (is_derive_ext (fun x => / (1 - c) * (Rpower x (1 - gamma) - c))).
  { intros t. unfold Rdiv. apply Rmult_comm. }
  replace (pl_density eps gamma x) with (/ (1 - c) * (((1 - gamma) * Rpower x (1 - gamma - 1)) - 0)).
  2:{ unfold pl_density. fold c. replace (1 - gamma - 1) with (- gamma) by ring. unfold Rdiv. ring. }
  apply (is_derive_scal (fun x => Rpower x (1 - gamma) - c)).
  apply (is_derive_minus (fun x => Rpower x (1 - gamma)) (fun _ => c)); [now apply is_derive_Rpower|exact (is_derive_const c x)].
Qed.

Lemma continuous_Rpower x e : 0 < x -> continuous (fun x => Rpower x e) x.
Proof. intros Hx. apply (ex_derive_continuous (fun x : R => Rpower x e : R) x). eexists. now apply is_derive_Rpower. Qed.

(** the density is normalised on [eps,1] *)
Lemma density_integral : is_RInt (pl_density eps gamma) eps 1 1.
Proof.
  assert (H : is_RInt (pl_density eps gamma) eps 1 (minus (pl_cdf eps gamma 1) (pl_cdf eps gamma eps))).
  - apply (is_RInt_derive (V := R_CompleteNormedModule) (pl_cdf eps gamma)).
    + intros x Hx. apply cdf_derive. rewrite Rmin_left in Hx; lra.
    + intros x Hx. rewrite Rmin_left in Hx by lra. unfold pl_density.
      apply (continuous_scal_r (V := R_NormedModule) _ (fun x : R => Rpower x (- gamma) : R)). apply continuous_Rpower. lra.
  - assert (E : minus (pl_cdf eps gamma 1) (pl_cdf eps gamma eps) = 1).
    { unfold minus, plus, opp. cbn. unfold pl_cdf. rewrite Rpower_base1. fold c. pose proof c_gt. field. lra. }
    rewrite E in H. exact H.
Qed.

Definition true_mean : R := (1 - gamma) / (1 - c) * ((1 - Rpower eps (2 - gamma)) / (2 - gamma)).
Lemma mean_integral : gamma <> 2 -> is_RInt (fun x => x * pl_density eps gamma x) eps 1 true_mean.
Proof.
  intros H2. pose proof c_gt as Hc.
  set (G := fun x => (1 - gamma) / (1 - c) / (2 - gamma) * Rpower x (2 - gamma)).
  replace true_mean with (minus (G 1) (G eps)).
  2:{ unfold minus, plus, opp. cbn. unfold G, true_mean. rewrite Rpower_base1. field. lra. }
  apply (is_RInt_ext (fun x => (1 - gamma) / (1 - c) * Rpower x (1 - gamma))).
  { intros x Hx. rewrite Rmin_left, Rmax_right in Hx by lra. unfold pl_density. fold c.
    replace (1 - gamma) with (1 + - gamma) at 2 by ring. rewrite Rpower_plus, Rpower_1 by lra. match goal with |- ?u = ?w => change (@eq R u w) end. ring. }
  apply (is_RInt_derive (V := R_CompleteNormedModule) G).
  - intros x Hx. rewrite Rmin_left in Hx by lra. unfold G.
    replace ((1 - gamma) / (1 - c) * Rpower x (1 - gamma)) with ((1 - gamma) / (1 - c) / (2 - gamma) * ((2 - gamma) * Rpower x (2 - gamma - 1))).
    2:{ replace (2 - gamma - 1) with (1 - gamma) by ring. field. lra. }
    apply (is_derive_scal (fun x => Rpower x (2 - gamma))). apply is_derive_Rpower. lra.
  - intros x Hx. rewrite Rmin_left in Hx by lra. apply (continuous_scal_r (V := R_NormedModule) _ (fun x : R => Rpower x (1 - gamma) : R)). apply continuous_Rpower. lra.
Qed.

Lemma mean_model (lm : Libm RA) : lpow RA lm = Rpow ->
  power_law_mean (a:=RA) lm eps gamma = - (1 - gamma) / (2 - gamma) * Rpower eps (2 - gamma) / (1 - c).
Proof.
  intros Hp. unfold power_law_mean. cbn [fadd fsub fmul fdiv fopp fofZ f1 RA]. rewrite Hp, !Rpow_pos_base by lra. reflexivity.
Qed.
Lemma mean_gap (lm : Libm RA) : lpow RA lm = Rpow -> gamma <> 2 ->
  power_law_mean (a:=RA) lm eps gamma = true_mean + (gamma - 1) / ((gamma - 2) * (c - 1)).
Proof.
  intros Hp H2. pose proof c_gt. eapply eq_trans; [now apply mean_model|]. unfold true_mean. match goal with |- ?u = ?w => change (@eq R u w) end. field. repeat split; lra.
Qed.

Lemma pdf_model (lm : Libm RA) x : lpow RA lm = Rpow -> 0 < x ->
  power_law_pdf (a:=RA) lm eps gamma x = (1 - gamma) / (1 - c * Rpower x (- gamma)).
Proof.
  intros Hp Hx. unfold power_law_pdf. cbn [fadd fsub fmul fdiv fopp fofZ f1 RA]. rewrite Hp, !Rpow_pos_base by lra. reflexivity.
Qed.
Lemma pdf_differs (lm : Libm RA) x : lpow RA lm = Rpow -> 0 < x < 1 ->
  power_law_pdf (a:=RA) lm eps gamma x <> pl_density eps gamma x.
Proof.
  intros Hp Hx. rewrite pdf_model by (auto; lra). unfold pl_density. fold c. pose proof c_gt as Hc.
  pose proof (Rpower_neg_gt x (- gamma) Hx ltac:(lra)) as Hy. set (y := Rpower x (- gamma)) in *. intros E.
  assert (H1 : 1 - c * y < 0) by nra. assert (H2 : 1 - c < 0) by lra.
  assert (E2 : (1 - gamma) * (1 - c) = (1 - gamma) * y * (1 - c * y)).
  { apply (f_equal (fun z => z * (1 - c * y) * (1 - c))) in E. revert E.
    replace ((1 - gamma) / (1 - c * y) * (1 - c * y) * (1 - c)) with ((1 - gamma) * (1 - c)) by (field; lra).
    replace ((1 - gamma) / (1 - c) * y * (1 - c * y) * (1 - c)) with ((1 - gamma) * y * (1 - c * y)) by (field; lra). auto. }
  assert (E3 : 1 - c = y * (1 - c * y)). { apply Rmult_eq_reg_l with (1 - gamma); lra. }
  assert (E4 : (y - 1) * (c * y + c - 1) = 0) by nra.
  apply Rmult_integral in E4 as [E4|E4]; nra.
Qed.
End PowerLaw.
