(** The distributions (C47, C48, C49). *)
From Verif Require Import Base BaseFacts Arith64 RFacts MRandom SRandom PRandom WRandom MDist SDist PDist PErfinv MNetwork SNetwork
  MAgents MDeGroot MActivity SActivity PActIter2 PActInit TActivity TMean.
From Coq Require Import Reals Lra Psatz.
From Coquelicot Require Import RInt Derive Hierarchy.
Local Open Scope R_scope.

(** ** C47 *)
Section C47.
Context (lm : Libm RA).
Hypothesis Hpow : lpow RA lm = Rpow.

(** inverse_cdf is increasing from [0,1] onto [eps,1] and is the inverse of the distribution
    function [pl_cdf]. *)
Theorem C47_inverse_cdf eps gamma : 0 < eps < 1 -> 1 < gamma ->
  (forall u, 0 <= u <= 1 -> eps <= power_law_inverse_cdf (a:=RA) lm eps gamma u <= 1 /\
     pl_cdf eps gamma (power_law_inverse_cdf (a:=RA) lm eps gamma u) = u) /\
  (forall u v, 0 <= u -> u < v -> v <= 1 ->
     power_law_inverse_cdf (a:=RA) lm eps gamma u < power_law_inverse_cdf (a:=RA) lm eps gamma v) /\
  (forall x, eps <= x <= 1 -> 0 <= pl_cdf eps gamma x <= 1 /\
     power_law_inverse_cdf (a:=RA) lm eps gamma (pl_cdf eps gamma x) = x) /\
  power_law_inverse_cdf (a:=RA) lm eps gamma 0 = eps /\ power_law_inverse_cdf (a:=RA) lm eps gamma 1 = 1.
Proof.
  intros He Hg. split; [|split; [|split; [|split]]].
  - intros u Hu. rewrite (inverse_cdf_R eps gamma He Hg lm u Hpow Hu). split; [now apply inv_R_range|now apply cdf_inv].
  - intros u v H1 H2 H3. rewrite !(inverse_cdf_R eps gamma He Hg lm) by (auto; lra). apply inv_R_mono; auto; lra.
  - intros x Hx. pose proof (cdf_range eps gamma He Hg x Hx) as Hr. split; [exact Hr|].
    rewrite (inverse_cdf_R eps gamma He Hg lm) by auto. now apply inv_cdf.
  - rewrite (inverse_cdf_R eps gamma He Hg lm) by (auto; lra). apply (inv_R_0 eps gamma He Hg).
  - rewrite (inverse_cdf_R eps gamma He Hg lm) by (auto; lra). apply inv_R_1.
Qed.

(** ... where [pl_cdf] is the distribution function of the documented density on [eps,1]: its
    derivative is that density, which integrates to 1. *)
Theorem C47_cdf_of_documented_density eps gamma : 0 < eps < 1 -> 1 < gamma ->
  (forall x, 0 < x -> is_derive (pl_cdf eps gamma) x (pl_density eps gamma x)) /\
  pl_cdf eps gamma eps = 0 /\ pl_cdf eps gamma 1 = 1 /\ is_RInt (pl_density eps gamma) eps 1 1.
Proof.
  intros He Hg. pose proof (c_gt eps gamma He Hg) as Hc. unfold c in Hc. split; [|split; [|split]].
  - intros x Hx. now apply cdf_derive.
  - unfold pl_cdf. field. lra.
  - unfold pl_cdf. rewrite Rpower_base1. field. lra.
  - now apply density_integral.
Qed.

(** A single draw. *)
Theorem C47_draw_in_range (g : Rng RA) eps gamma s : real_ok g -> 0 < eps < 1 -> 1 < gamma ->
  eps <= fst (power_law_draw (a:=RA) lm g eps gamma s) <= 1.
Proof.
  intros Hg He Hga. unfold power_law_draw. pose proof (Hg (f0 RA) (f1 RA) s) as H. cbn [flt fle f0 f1 RA] in *.
  assert (H01 : Rltb 0 1 = true) by (destruct (Rltb_spec 0 1); auto; lra). specialize (H H01) as [H1 H2].
  destruct (r_real g 0 1 s) as [u s'] eqn:E. cbn [fst] in *.
  destruct (Rleb_spec 0 u); [|discriminate]. destruct (Rltb_spec u 1); [|discriminate].
  apply (C47_inverse_cdf eps gamma He Hga). lra.
Qed.

Lemma Phi_range x : (forall z : R, Rabs (lerf RA lm z) <= 1) -> 0 <= Phi (a:=RA) lm x <= 1.
Proof.
  intros He. unfold Phi. cbn [fadd fmul f1 RA]. 
  assert (El : lit10 (a:=RA) 5 1 = 5 / 10) by (apply lit10_val; reflexivity). rewrite El.
  match goal with |- context [lerf RA lm ?z] => specialize (He z); revert He; generalize (lerf RA lm z) end.
  intros e He. change R in e. assert (-1 <= e <= 1) by (unfold Rabs in He; destruct (Rcase_abs e); lra). lra.
Qed.

Lemma drawn_ok (g : Rng RA) {A} (ops : agent_ops (F RA) A) (st : ad_settings (F RA)) : ops_ok ops ->
  (forall z : R, Rabs (lerf RA lm z) <= 1) -> real_ok g -> 0 < eps st < 1 -> 1 < gamma st -> mean_activities st = false ->
  forall l s x, In x (fst (drawn_agents lm g ops st l s)) ->
  (-1 <= get_opinion ops x < 1) /\ eps st <= get_activity ops x <= 1.
Proof.
  intros (O1 & O2 & O3 & O4 & O5 & O6 & O7 & O8 & O9) He Hg Hep Hga Hm.
  induction l as [|y l IH]; intros s x; cbn [drawn_agents]; [intros []|].
  pose proof (Hg (fofZ RA (-1)) (fofZ RA 1) s) as Hr. cbn [flt fle fofZ RA] in *.
  assert (H01 : Rltb (-1) 1 = true) by (destruct (Rltb_spec (-1) 1); auto; lra). specialize (Hr H01) as [H1 H2].
  destruct (r_real g (-1) 1 s) as [o s1]. cbn [fst] in H1, H2.
  destruct (r_normal g s1) as [n1 s2]. destruct (r_normal g s2) as [n2 s3]. specialize (IH s3).
  destruct (drawn_agents lm g ops st l s3) as [t s4]. cbn [fst] in *. intros [Hx|Hx]; [|now apply IH].
  rewrite Hm in Hx.
  assert (Eo : get_opinion ops x = o) by (subst x; destruct (use_reluctances st); rewrite ?O8, O5, O1; reflexivity).
  assert (Ea : get_activity ops x = power_law_inverse_cdf (a:=RA) lm (eps st) (gamma st) (Phi (a:=RA) lm n1))
    by (subst x; destruct (use_reluctances st); rewrite ?O9, O4; reflexivity).
  rewrite Eo, Ea. split.
  - destruct (Rleb_spec (-1) o); [|discriminate]. destruct (Rltb_spec o 1); [|discriminate]. lra.
  - apply (C47_inverse_cdf (eps st) (gamma st) Hep Hga). now apply Phi_range.
Qed.

(** Construction of an activity-driven or inertial model: every agent that is not a bot starts with an
    opinion in [-1,1) and an activity in [eps,1]. *)
Theorem C47_initial_agents (g : Rng RA) {A} (ops : agent_ops (F RA) A) d (st : ad_settings (F RA)) (h : network A (F RA)) s md s' i x :
  ops_ok ops -> (forall z : R, Rabs (lerf RA lm z) <= 1) -> real_ok g -> 0 < eps st < 1 -> 1 < gamma st -> mean_activities st = false ->
  wf h -> dir h = Incoming -> settings_fit st (n_agents h) ->
  (n_bots st <= n_agents h)%nat -> (n_bots st <= length (bot_opinion st))%nat -> (n_bots st <= length (bot_activity st))%nat ->
  ad_ctor (a:=RA) lm g ops d st h s = Ok (md, s') ->
  (n_bots st <= i)%nat -> nth_error (agents (ad_net md)) i = Some x ->
  (-1 <= get_opinion ops x < 1) /\ eps st <= get_activity ops x <= 1.
Proof.
  intros Ho He Hg Hep Hga Hm Hw Hd Hf H1 H2 H3 E Hi Hx.
  destruct (ctor_ok (a:=RA) lm g ops d st h s Hw Hd Hf H1 H2 H3) as (md2 & s2 & E' & _ & _ & _ & Ea & _).
  rewrite E in E'. assert (md2 = md) by congruence. subst md2. rewrite Ea in Hx.
  apply (drawn_ok g ops st Ho He Hg Hep Hga Hm (agents h) s).
  unfold with_bot_values in Hx. rewrite nth_error_map in Hx.
  destruct (nth_error (combine (seq 0 (length (fst (drawn_agents lm g ops st (agents h) s)))) (fst (drawn_agents lm g ops st (agents h) s))) i)
    as [[j y]|] eqn:Ec; [|discriminate].
  cbn [option_map fst snd] in Hx.
  assert (Hj : j = i /\ In y (fst (drawn_agents lm g ops st (agents h) s))).
  { split.
    - assert (Hil : (i < length (fst (drawn_agents lm g ops st (agents h) s)))%nat).
      { assert (i < length (combine (seq 0 (length (fst (drawn_agents lm g ops st (agents h) s)))) (fst (drawn_agents lm g ops st (agents h) s))))%nat by (apply nth_error_Some; congruence).
        rewrite combine_length, seq_length in H. lia. }
      apply nth_error_nth with (d := (0%nat, y)) in Ec. rewrite combine_nth in Ec by now rewrite seq_length.
      assert (Ej : nth i (seq 0 (length (fst (drawn_agents lm g ops st (agents h) s)))) 0%nat = j) by congruence.
      rewrite seq_nth in Ej by exact Hil. lia.
    - apply nth_error_In in Ec. now apply in_combine_r in Ec. }
  destruct Hj as [-> Hy]. rewrite (proj2 (Nat.ltb_ge _ _) Hi) in Hx. assert (y = x) by congruence. now subst y.
Qed.
End C47.

(** ** C48 *)
(** pdf differs from the documented density at every point of (0,1) (and agrees with it at 1). *)
Theorem C48_pdf_refuted (lm : Libm RA) eps gamma x : lpow RA lm = Rpow -> 0 < eps < 1 -> 1 < gamma -> 0 < x < 1 ->
  power_law_pdf (a:=RA) lm eps gamma x <> pl_density eps gamma x.
Proof. intros. now apply pdf_differs. Qed.

(** mean() exceeds the expectation of the documented density on [eps,1] - the distribution that is
    sampled - by (gamma-1) / ((gamma-2) (eps^(1-gamma) - 1)) for every gamma above 2. *)
Theorem C48_mean_refuted (lm : Libm RA) eps gamma : lpow RA lm = Rpow -> 0 < eps < 1 -> 2 < gamma ->
  exists mu, is_RInt (fun x => x * pl_density eps gamma x) eps 1 mu /\
    power_law_mean (a:=RA) lm eps gamma = mu + (gamma - 1) / ((gamma - 2) * (Rpower eps (1 - gamma) - 1)) /\
    mu < power_law_mean (a:=RA) lm eps gamma.
Proof.
  intros Hp He Hg. exists (true_mean eps gamma). assert (Hg1 : 1 < gamma) by lra.
  pose proof (mean_gap eps gamma He Hg1 lm Hp ltac:(lra)) as E. pose proof (c_gt eps gamma He Hg1) as Hc.
  split; [apply mean_integral; auto; lra|]. split; [exact E|].
  eapply Rlt_le_trans; [|right; symmetry; exact E].
  assert (0 < (gamma - 1) / ((gamma - 2) * (c eps gamma - 1))). { apply Rdiv_lt_0_compat; [lra|apply Rmult_lt_0_compat; lra]. }
  lra.
Qed.

(** It is not even in the range of the activities: eps = 1/2, gamma = 3 gives 4/3. *)
Theorem C48_mean_above_one (lm : Libm RA) : lpow RA lm = Rpow -> power_law_mean (a:=RA) lm (1 / 2) 3 = 4 / 3.
Proof.
  intros Hp. eapply eq_trans; [apply (mean_model (1 / 2) 3 ltac:(lra) lm Hp)|].
  unfold c. replace (1 - 3) with (- (2)) by ring. replace (2 - 3) with (- (1)) by ring.
  assert (E2 : Rpower (1 / 2) 2 = 1 / 4).
  { replace 2 with (1 + 1) at 2 by ring. rewrite Rpower_plus, Rpower_1 by lra. field. }
  rewrite !Rpower_Ropp, Rpower_1, E2 by lra. match goal with |- ?u = ?w => change (@eq R u w) end. field.
Qed.

(** ** C49 *)
Section C49.
Context (lm : Libm EA).

Theorem C49_outside (x : ext) : eltb x (Fin (-1)) = true \/ eltb (Fin 1) x = true -> erfinv (a:=EA) lm x = NaN.
Proof.
  intros H. unfold erfinv. cbn [flt fofZ EA].
  assert (E : eltb x (Fin (-1)) || eltb (Fin 1) x = true) by (apply orb_true_iff; exact H). rewrite E.
  unfold f_nan. cbn. destruct (Req_EM_T 0 0); [|lra]. unfold sinf. destruct (Rlt_dec 0 0); [lra|reflexivity].
Qed.
Theorem C49_at_one : erfinv (a:=EA) lm (Fin 1) = PInf /\ erfinv (a:=EA) lm (Fin (-1)) = NInf.
Proof.
  assert (Ei : f_inf (a:=EA) = PInf).
  { unfold f_inf. cbn. destruct (Req_EM_T 0 0); [|lra]. unfold sinf. destruct (Rlt_dec 0 1); [reflexivity|lra]. }
  split; unfold erfinv; cbn [flt feq fofZ f1 EA eltb eeqb].
  - destruct (Rltb_spec 1 (-1)); [lra|]. destruct (Rltb_spec 1 1); [lra|]. cbn [orb]. destruct (Reqb_spec 1 1); [exact Ei|lra].
  - destruct (Rltb_spec (-1) (-1)); [lra|]. destruct (Rltb_spec 1 (-1)); [lra|]. cbn [orb]. destruct (Reqb_spec (-1) 1); [lra|].
    destruct (Reqb_spec (-1) (-1)); [|lra]. rewrite Ei. reflexivity.
Qed.

(** Inside (-1,1), for exact sqrt and log1p: finite, odd, positive for positive arguments, 0 at 0. *)
Theorem C49_inside : sqrt_ok lm -> log1p_ok lm -> exists f : R -> R,
  (forall x, -1 < x < 1 -> erfinv (a:=EA) lm (Fin x) = Fin (f x)) /\
  (forall x, -1 < x < 1 -> f (- x) = - f x) /\ (forall x, 0 < x < 1 -> 0 < f x) /\ f 0 = 0.
Proof.
  intros Hs Hl. exists (fun x => if Rlt_dec x 0 then - approx (- x) else approx x).
  assert (A0 : approx 0 = 0).
  { unfold approx. cbv zeta. rewrite lit85. destruct (Rleb_spec 0 (85 / 100)); [|lra].
    match goal with |- 0 * ?u / ?w = 0 => generalize u w end. intros. unfold Rdiv. ring. }
  split; [|split; [|split]].
  - intros x Hx. now apply erfinv_inner.
  - intros x Hx. cbv beta. destruct (Rlt_dec (- x) 0), (Rlt_dec x 0); try lra.
    + rewrite Ropp_involutive. reflexivity.
    + assert (x = 0) by lra. subst x. rewrite Ropp_0, A0. ring.
  - intros x Hx. cbv beta. destruct (Rlt_dec x 0); [lra|]. now apply approx_pos.
  - cbv beta. destruct (Rlt_dec 0 0); [lra|exact A0].
Qed.
End C49.

(** ** Non-vacuity *)
Definition exact_libm : Libm EA := mkLibm EA epow elog (fun x => x)
  (fun x => match x with Fin r => Fin (sqrt r) | y => y end) (fun x => x)
  (fun x => match x with Fin r => Fin (ln (1 + r)) | y => y end) (fun x => x).
Example exact_libm_ok : sqrt_ok exact_libm /\ log1p_ok exact_libm.
Proof. split; intros r _; reflexivity. Qed.
(** The hypotheses of C47_initial_agents hold for the reals' functions and the demo model. *)
Definition real_libm0 : Libm RA := mkLibm RA Rpow ln tanh sqrt tanh ln exp.
Example C47_instance : exists md s', ad_ctor (a:=RA) real_libm0 mid_real_rng (activity_ops R) (mkActivity 0 0 1)%R (demo_settings 1 false) demo_net tt = Ok (md, s') /\
  forall x, nth_error (agents (ad_net md)) 2 = Some x -> (-1 <= a_opinion x < 1) /\ 1 / 100 <= a_activity x <= 1.
Proof.
  destruct (ctor_ok (a:=RA) real_libm0 mid_real_rng (activity_ops R) (mkActivity 0 0 1)%R (demo_settings 1 false) demo_net tt
    demo_wf eq_refl (demo_fit _ _)) as (md & s' & E & _); cbn; try lia.
  exists md, s'. split; [exact E|]. intros x Hx.
  apply (C47_initial_agents real_libm0 eq_refl mid_real_rng (activity_ops (F RA)) (mkActivity 0 0 1) (demo_settings 1 false) demo_net tt md s' 2 x);
    auto using activity_ops_ok, mid_real_rng_ok, demo_wf, demo_fit; cbn; try lia; try lra.
  exact tanh_bounded.
Qed.

Print Assumptions C47_inverse_cdf.
Print Assumptions C47_cdf_of_documented_density.
Print Assumptions C47_initial_agents.
Print Assumptions C48_pdf_refuted.
Print Assumptions C48_mean_refuted.
Print Assumptions C49_inside.
