(** Property theorems C112: the law of the initial activities and opinions of the activity-driven models. *)
From Verif Require Import Base BaseFacts Arith64 RFacts MRandom SRandom PRandom WRandom MDist SDist PDist PErfinv MNetwork SNetwork
  MAgents MDeGroot MActivity SActivity PActIter2 PActInit TActivity TMean TDist TGauss.
From Coq Require Import ZArith Reals Lra Psatz.
From Coquelicot Require Import Coquelicot.
From Verif Require Import SGauss PGauss SCopula.
Local Open Scope R_scope.

Section Law.
Variables (lm : Libm RA) (eps gamma : R).
Hypotheses (Hm : math_libm lm) (He : 0 < eps < 1) (Hg : 1 < gamma).
(** The activity computed from a standard normal number. *)
Definition activity_of (z : R) : R := power_law_inverse_cdf (a:=RA) lm eps gamma (copula_cdf_gauss (a:=RA) lm z).
Notation c := (Rpower eps (1 - gamma)).
Notation e := (1 / (1 - gamma)).
Notation lin u := ((1 - c) * u + c).

Lemma cdf_model z : copula_cdf_gauss (a:=RA) lm z = normal_cdf 0 1 z.
Proof using Hm.
  unfold copula_cdf_gauss, normal_cdf. rewrite (mm_erf lm Hm), (mm_sqrt lm Hm). cbn [fmul fadd fdiv f1 fofZ RA].
  assert (E : @lit10 RA 5 1 = / 2). { unfold lit10. cbn -[IZR]. change (match (10 ^ Z.of_N 1)%Z with Zpos q0 => q0 | _ => 1%positive end) with 10%positive. lra. }
  rewrite E. match goal with |- ?u = ?w => change (@eq R u w) end. do 3 f_equal. rewrite Rmult_1_l, Rminus_0_r. reflexivity.
Qed.
Lemma Phi_range z : 0 < normal_cdf 0 1 z < 1.
Proof. destruct (C67_normal_cdf 0 1 ltac:(lra)) as (_ & H & _). apply H. Qed.
Lemma activity_R z : activity_of z = Rpower (lin (normal_cdf 0 1 z)) e.
Proof using Hm He Hg.
  unfold activity_of. rewrite cdf_model. pose proof (Phi_range z). apply inverse_cdf_R; auto; [now apply mm_pow|lra].
Qed.
Lemma cgt : 1 < c.
Proof using He Hg. now apply (c_gt eps gamma). Qed.
Lemma lin_pos u : u <= 1 -> 1 <= lin u.
Proof using He Hg. pose proof cgt. nra. Qed.
Lemma activity_range z : eps < activity_of z < 1.
Proof using Hm He Hg.
  rewrite activity_R. pose proof (Phi_range z) as H. pose proof cgt. split.
  - eapply Rle_lt_trans; [|apply (inv_R_mono eps gamma He Hg 0); lra]. rewrite inv_R_0 by auto. lra.
  - eapply Rlt_le_trans; [apply (inv_R_mono eps gamma He Hg _ 1); lra|]. rewrite inv_R_1. lra.
Qed.
Lemma density_pos x : 0 < x -> 0 < pl_density eps gamma x.
Proof using He Hg.
  intros Hx. unfold pl_density. pose proof cgt. apply Rmult_lt_0_compat; [|apply exp_pos].
  replace ((1 - gamma) / (1 - c)) with ((gamma - 1) / (c - 1)) by (field; lra). apply Rdiv_lt_0_compat; lra.
Qed.
Lemma density_continuous x : 0 < x -> continuous (pl_density eps gamma) x.
Proof using.
  intros Hx. unfold pl_density. apply (continuous_scal_r ((1 - gamma) / (1 - c)) (fun x => Rpower x (- gamma))).
  apply (ex_derive_continuous (fun x => Rpower x (- gamma))). eexists. now apply is_derive_Rpower.
Qed.
Lemma normal_continuous z : continuous (normal_density 0 1) z.
Proof. unfold normal_density. apply (ex_derive_continuous (fun x => / (1 * sqrt (2 * PI)) * exp (- ((x - 0) * (x - 0)) / (2 * (1 * 1))))). auto_derive. auto. Qed.
Lemma quantile_derive u : u <= 1 -> is_derive (fun u => Rpower (lin u) e) u (/ pl_density eps gamma (Rpower (lin u) e)).
Proof using He Hg.
  intros Hu. pose proof (lin_pos u Hu) as HL. pose proof cgt as Hc.
  replace (/ pl_density eps gamma (Rpower (lin u) e)) with ((1 - c) * (e * Rpower (lin u) (e - 1))).
  - apply (is_derive_comp (fun x => Rpower x e) (fun u => lin u)); [apply is_derive_Rpower; lra|]. auto_derive; auto. ring.
  - unfold pl_density. rewrite Rpower_mult. set (L := lin u) in *. clearbody L. apply Rmult_eq_reg_r with (Rpower L (e * - gamma)); [|apply Rgt_not_eq, exp_pos].
    transitivity ((1 - c) * e * Rpower L (e - 1 + e * - gamma)); [rewrite Rpower_plus; ring|].
    replace (e - 1 + e * - gamma) with 0 by (field; lra). rewrite Rpower_O by lra. field. repeat split; first [lra|apply Rgt_not_eq, exp_pos].
Qed.
Lemma activity_derive z : is_derive activity_of z (normal_density 0 1 z / pl_density eps gamma (activity_of z)).
Proof using Hm He Hg.
  apply (is_derive_ext (fun z => Rpower (lin (normal_cdf 0 1 z)) e)); [intros; symmetry; apply activity_R|]. rewrite activity_R.
  apply (is_derive_comp (fun u => Rpower (lin u) e) (normal_cdf 0 1) z (/ pl_density eps gamma (Rpower (lin (normal_cdf 0 1 z)) e)) (normal_density 0 1 z)).
  - apply quantile_derive. pose proof (Phi_range z). lra.
  - apply (proj1 (C67_normal_cdf 0 1 ltac:(lra))).
Qed.
Lemma activity_continuous z : continuous activity_of z.
Proof using Hm He Hg. apply (ex_derive_continuous activity_of). eexists. apply activity_derive. Qed.

(** The activity grows with the normal number; the activities up to [activity_of z] have, under the documented power
    law, the probability of the normal numbers up to [z]. *)
Theorem C112_activity_distribution z z' :
  (activity_of z' <= activity_of z <-> z' <= z) /\ eps < activity_of z < 1 /\ pl_cdf eps gamma (activity_of z) = normal_cdf 0 1 z.
Proof using Hm He Hg.
  assert (Hinc : forall x y, x < y -> activity_of x < activity_of y).
  { intros x y Hxy. apply (incr_function activity_of m_infty p_infty (fun z => normal_density 0 1 z / pl_density eps gamma (activity_of z))); try exact I; auto.
    - intros u _ _. apply activity_derive.
    - intros u _ _. apply Rdiv_lt_0_compat; [|apply density_pos; pose proof (activity_range u); lra].
      unfold normal_density. apply Rmult_lt_0_compat; [|apply exp_pos]. apply Rinv_0_lt_compat, Rmult_lt_0_compat; [lra|]. apply sqrt_lt_R0. pose proof PI_RGT_0. lra. }
  split; [|split].
  - split; intros H.
    + destruct (Rle_or_lt z' z); auto. specialize (Hinc _ _ H0). lra.
    + destruct H as [H| ->]; [left; auto|lra].
  - apply activity_range.
  - rewrite activity_R. pose proof (Phi_range z). apply cdf_inv; auto. lra.
Qed.

Lemma activity_integral f a b : (forall x, 0 < x -> continuous f x) ->
  is_RInt (fun z => f (activity_of z) * normal_density 0 1 z) a b (RInt (fun x => f x * pl_density eps gamma x) (activity_of a) (activity_of b)).
Proof using Hm He Hg.
  intros Hf.
  apply (is_RInt_ext (fun z => scal (normal_density 0 1 z / pl_density eps gamma (activity_of z)) (f (activity_of z) * pl_density eps gamma (activity_of z)))).
  { intros z _. unfold scal; cbn. unfold mult; cbn. pose proof (activity_range z). pose proof (density_pos (activity_of z) ltac:(lra)). field. lra. }
  apply (is_RInt_comp (V := R_CompleteNormedModule) (fun x => f x * pl_density eps gamma x) activity_of).
  - intros z _. pose proof (activity_range z). apply (continuous_mult f (pl_density eps gamma)); [apply Hf|apply density_continuous]; lra.
  - intros z _. split; [apply activity_derive|]. unfold Rdiv. pose proof (activity_range z) as Hz.
    apply (continuous_mult (normal_density 0 1) (fun z => / pl_density eps gamma (activity_of z))); [apply normal_continuous|].
    apply continuous_Rinv_comp; [|apply Rgt_not_eq, density_pos; lra].
    apply (continuous_comp activity_of (pl_density eps gamma)); [apply activity_continuous|apply density_continuous; lra].
Qed.
Lemma quantile_continuous u : u <= 1 -> continuous (fun u => Rpower (lin u) e) u.
Proof using He Hg. intros H. apply (ex_derive_continuous (fun u => Rpower (lin u) e)). eexists. now apply quantile_derive. Qed.
Lemma activity_limits : filterlim activity_of (Rbar_locally p_infty) (locally 1) /\ filterlim activity_of (Rbar_locally m_infty) (locally eps).
Proof using Hm He Hg.
  destruct (C67_normal_cdf 0 1 ltac:(lra)) as (_ & _ & L1 & L0). split.
  - eapply filterlim_ext; [intros; symmetry; apply activity_R|].
    apply (filterlim_comp _ _ _ (normal_cdf 0 1) (fun u => Rpower (lin u) e) _ (locally 1) _); [exact L1|]. pose proof (quantile_continuous 1 ltac:(lra)) as H. unfold continuous in H. rewrite (inv_R_1 eps gamma : Rpower (lin 1) e = 1) in H. exact H.
  - eapply filterlim_ext; [intros; symmetry; apply activity_R|].
    apply (filterlim_comp _ _ _ (normal_cdf 0 1) (fun u => Rpower (lin u) e) _ (locally 0) _); [exact L0|]. pose proof (quantile_continuous 0 ltac:(lra)) as H. unfold continuous in H. rewrite (inv_R_0 eps gamma He Hg : Rpower (lin 0) e = eps) in H. exact H.
Qed.
Lemma activity_average f v : (forall x, 0 < x -> continuous f x) -> is_RInt (fun x => f x * pl_density eps gamma x) eps 1 v ->
  normal_average (fun z => f (activity_of z)) v.
Proof using Hm He Hg.
  intros Hf Hv. set (F := fun x => f x * pl_density eps gamma x).
  assert (HF : forall x, 0 < x -> continuous F x). { intros x Hx. apply (continuous_mult f (pl_density eps gamma)); auto. now apply density_continuous. }
  assert (HI : forall a b, 0 < a -> 0 < b -> ex_RInt F a b).
  { intros a b Ha Hb. apply (ex_RInt_continuous (V := R_CompleteNormedModule)). intros x Hx. apply HF. unfold Rmin in Hx. destruct (Rle_dec a b); lra. }
  split; [intros T _; eexists; now apply activity_integral|].
  set (P := (fun x => RInt F eps x) : R -> R).
  assert (HP : forall x, 0 < x -> continuous P x).
  { intros x Hx. apply (ex_derive_continuous P). eexists. apply (is_derive_RInt F P eps x); [|now apply HF].
    assert (Hx2 : 0 < x / 2) by lra. exists (mkposreal (x / 2) Hx2). intros y Hy. change (Rabs (y - x) < x / 2) in Hy. apply Rabs_def2 in Hy.
    apply (RInt_correct (V := R_CompleteNormedModule) F eps y). apply HI; lra. }
  apply (is_lim_ext (fun T => P (activity_of T) - P (activity_of (- T)))).
  { intros T. rewrite (is_RInt_unique _ _ _ _ (activity_integral f (- T) T Hf)). change (fun x => f x * pl_density eps gamma x) with F. unfold P.
    pose proof (activity_range T). pose proof (activity_range (- T)).
    rewrite <- (RInt_Chasles F eps (activity_of (- T)) (activity_of T)) by (apply HI; lra).
    generalize (RInt F eps (activity_of (- T))) (RInt F (activity_of (- T)) (activity_of T)). intros x y. change (x + y - x = y). ring. }
  replace v with (P 1 - P eps).
  2:{ assert (E1 : P 1 = v) by exact (is_RInt_unique (V := R_CompleteNormedModule) F eps 1 v Hv). assert (E0 : P eps = 0) by exact (RInt_point (V := R_CompleteNormedModule) eps F).
    rewrite E1, E0. match goal with |- ?x = ?y => change (@eq R x y) end. ring. }
  destruct activity_limits as [L1 L0].
  apply (is_lim_minus _ _ _ (P 1) (P eps)).
  - apply (filterlim_comp _ _ _ activity_of P _ (locally 1) _); [exact L1|apply HP; lra].
  - apply (filterlim_comp _ _ _ (fun T => activity_of (- T)) P _ (locally eps) _); [|apply HP; lra].
    apply (filterlim_comp _ _ _ Ropp activity_of _ (Rbar_locally m_infty) _); [|exact L0]. exact (filterlim_Rbar_opp p_infty).
  - reflexivity.
Qed.

(** C112. One draw of activity and reluctance (bivariate_gaussian_copula): whatever the covariance and the
    distribution of the reluctance, the average of any continuous function of the activity, over the normal number
    it is computed from, is its average under the documented power law on [eps,1]. *)
Theorem C112_activity_law (G : R -> Rng RA) (s : forall z, rst (G z)) (cov : R) (q : R -> R) f v :
  (forall z, fst (r_normal (G z) (s z)) = z) ->
  (forall x, 0 < x -> continuous f x) -> is_RInt (fun x => f x * pl_density eps gamma x) eps 1 v ->
  normal_average (fun z => f (fst (fst (copula_draw (a:=RA) lm (G z) cov (power_law_inverse_cdf (a:=RA) lm eps gamma) q (s z))))) v.
Proof using Hm He Hg.
  intros Hz Hf Hv. destruct (activity_average f v Hf Hv) as [H1 H2].
  assert (E : forall z, fst (fst (copula_draw (a:=RA) lm (G z) cov (power_law_inverse_cdf (a:=RA) lm eps gamma) q (s z))) = activity_of z).
  { intros z. specialize (Hz z). unfold copula_draw, bivariate_normal. destruct (r_normal (G z) (s z)) as [n1 s1]. destruct (r_normal (G z) s1) as [n2 s2]. cbn [fst] in *. subst n1. reflexivity. }
  split.
  - intros T HT. eapply ex_RInt_ext; [|exact (H1 T HT)]. intros z _. cbv beta. now rewrite E.
  - eapply is_lim_ext; [|exact H2]. intros T. apply RInt_ext. intros z _. cbv beta. now rewrite E.
Qed.
(** The average activity (not what power_law_distribution::mean returns: C48). *)
Theorem C112_mean_activity (G : R -> Rng RA) (s : forall z, rst (G z)) (cov : R) (q : R -> R) :
  (forall z, fst (r_normal (G z) (s z)) = z) -> gamma <> 2 ->
  normal_average (fun z => fst (fst (copula_draw (a:=RA) lm (G z) cov (power_law_inverse_cdf (a:=RA) lm eps gamma) q (s z))))
    ((1 - gamma) / (2 - gamma) * ((1 - Rpower eps (2 - gamma)) / (1 - Rpower eps (1 - gamma)))).
Proof using Hm He Hg.
  intros Hz H2. apply (C112_activity_law G s cov q (fun x => x)); auto; [intros x _; apply continuous_id|].
  replace ((1 - gamma) / (2 - gamma) * ((1 - Rpower eps (2 - gamma)) / (1 - Rpower eps (1 - gamma)))) with (true_mean eps gamma).
  - now apply mean_integral.
  - unfold true_mean, PDist.c. pose proof cgt. field. split; lra.
Qed.
End Law.

(** Every agent that is not a bot starts with a uniform number from [-1,1) as its opinion and the activity of one
    such draw, both taken from the generator when it is its turn. *)
Theorem C112_initial_agents (lm : Libm RA) (g : Rng RA) {A} (ops : agent_ops (F RA) A) d (st : ad_settings (F RA)) (h : network A (F RA)) s md s' i x :
  ops_ok ops -> mean_activities st = false ->
  wf h -> dir h = Incoming -> settings_fit st (n_agents h) ->
  (n_bots st <= n_agents h)%nat -> (n_bots st <= length (bot_opinion st))%nat -> (n_bots st <= length (bot_activity st))%nat ->
  ad_ctor (a:=RA) lm g ops d st h s = Ok (md, s') ->
  (n_bots st <= i)%nat -> nth_error (agents (ad_net md)) i = Some x ->
  exists t, get_opinion ops x = fst (r_real g (-1) 1 t) /\
    get_activity ops x = fst (fst (copula_draw (a:=RA) lm g (covariance_factor st) (power_law_inverse_cdf (a:=RA) lm (eps st) (gamma st))
       (tn_inverse_cdf (a:=RA) lm (reluctance_mean st) (reluctance_sigma st) (reluctance_eps st)) (snd (r_real g (-1) 1 t)))).
Proof.
  intros Ho Hm Hw Hd Hf H1 H2 H3 E Hi Hx.
  destruct (ctor_ok (a:=RA) lm g ops d st h s Hw Hd Hf H1 H2 H3) as (md2 & s2 & E' & _ & _ & _ & Ea & _).
  rewrite E in E'. assert (md2 = md) by congruence. subst md2. rewrite Ea in Hx. clear E E' Ea.
  assert (Hy : In x (fst (drawn_agents lm g ops st (agents h) s))).
  { unfold with_bot_values in Hx. rewrite nth_error_map in Hx. set (L := fst (drawn_agents lm g ops st (agents h) s)) in *.
    destruct (nth_error (combine (seq 0 (length L)) L) i) as [[j y]|] eqn:Ec; [|discriminate]. cbn [option_map fst snd] in Hx.
    assert (Hil : (i < length L)%nat).
    { assert (i < length (combine (seq 0 (length L)) L))%nat by (apply nth_error_Some; congruence). rewrite combine_length, seq_length in H. lia. }
    pose proof (nth_error_In _ _ Ec) as Hin. apply in_combine_r in Hin.
    apply nth_error_nth with (d := (0%nat, y)) in Ec. rewrite combine_nth in Ec by now rewrite seq_length.
    assert (Ej : nth i (seq 0 (length L)) 0%nat = j) by congruence. rewrite seq_nth in Ej by exact Hil. assert (j = i) by lia. subst j.
    cbn [Nat.add] in Hx. rewrite (proj2 (Nat.ltb_ge _ _) Hi) in Hx. assert (y = x) by congruence. now subst y. }
  clear Hx Hi Hw Hd Hf H1 H2 H3. revert s Hy. induction (agents h) as [|y l IH]; intros s Hy; [destruct Hy|].
  cbn [drawn_agents] in Hy. change (fofZ RA (-1)) with (-1) in Hy. change (fofZ RA 1) with 1 in Hy.
  destruct (r_real g (-1) 1 s) as [o s1] eqn:E1. destruct (r_normal g s1) as [n1 u2] eqn:E2. destruct (r_normal g u2) as [n2 s3] eqn:E3.
  specialize (IH s3). destruct (drawn_agents lm g ops st l s3) as [t s4]. rewrite Hm in Hy. cbn [fst] in *.
  destruct Hy as [<-|Hy]; [|auto]. exists s. rewrite E1. cbn [fst snd]. unfold copula_draw, bivariate_normal. rewrite E2, E3. cbn [fst].
  destruct Ho as (O1 & O2 & O3 & O4 & O5 & O6 & O7 & O8 & O9).
  destruct (use_reluctances st); rewrite ?O8, ?O9, ?O5, ?O4, ?O1; split; reflexivity.
Qed.

(** A generator whose next normal numbers are [z], 0, 0, ...; eps = 1/2, gamma = 3. *)
Definition normal_rng : Rng RA := mkRng RA R (fun lo hi z => (lo, z)) (fun lo _ z => (lo, z)) (fun pop k z => (seq 0 (Nat.min k pop), z)) (fun z => (z, 0)).
Example C112_mean_activity_instance :
  normal_average (fun z => fst (fst (copula_draw (a:=RA) math_lm normal_rng (1/2) (power_law_inverse_cdf (a:=RA) math_lm (1/2) 3) (fun x => x) z))) (2 / 3).
Proof.
  pose proof (C112_mean_activity math_lm (1/2) 3 math_lm_ok ltac:(lra) ltac:(lra) (fun _ => normal_rng) (fun z => z) (1/2) (fun x => x) (fun z => eq_refl) ltac:(lra)) as H.
  match type of H with normal_average _ ?v => replace v with (2 / 3) in H; [exact H|] end.
  assert (E2 : Rpower (1 / 2) 2 = 1 / 4). { replace 2 with (1 + 1) at 2 by ring. rewrite Rpower_plus, Rpower_1 by lra. field. }
  replace (1 - 3) with (- (2)) by ring. replace (2 - 3) with (- (1)) by ring. rewrite !Rpower_Ropp, Rpower_1, E2 by lra. field.
Qed.
(** The average squared activity is 2 ln 2 / 3. *)
Example C112_activity_law_instance :
  normal_average (fun z => (fun x => x * x) (fst (fst (copula_draw (a:=RA) math_lm normal_rng (1/2) (power_law_inverse_cdf (a:=RA) math_lm (1/2) 3) (fun x => x) z)))) (2 / 3 * ln 2).
Proof.
  apply (C112_activity_law math_lm (1/2) 3 math_lm_ok ltac:(lra) ltac:(lra) (fun _ => normal_rng) (fun z => z) (1/2) (fun x => x) (fun x => x * x)); auto.
  - intros x _. apply (ex_derive_continuous (fun x => x * x)). auto_derive; auto.
  - assert (E2 : Rpower (1 / 2) (1 - 3) = 4).
    { replace (1 - 3) with (- (1 + 1)) by ring. rewrite Rpower_Ropp, Rpower_plus, Rpower_1 by lra. field. }
    replace (2 / 3 * ln 2) with (minus (2 / 3 * ln 1) (2 / 3 * ln (1 / 2))).
    2:{ unfold Rdiv at 3. rewrite ln_1, Rmult_1_l, ln_Rinv by lra. change (2 / 3 * 0 - 2 / 3 * - ln 2 = 2 / 3 * ln 2). ring. }
    apply (is_RInt_derive (V := R_CompleteNormedModule) (fun x => 2 / 3 * ln x)).
    + intros x Hx. rewrite Rmin_left in Hx by lra. unfold pl_density. rewrite E2. auto_derive; [lra|].
      replace (- (3)) with (- (1 + 1 + 1)) by ring. rewrite Rpower_Ropp, !Rpower_plus, Rpower_1 by lra. field. lra.
    + intros x Hx. rewrite Rmin_left in Hx by lra. apply (continuous_mult (fun x => x * x) (pl_density (1 / 2) 3)).
      * apply (ex_derive_continuous (fun x => x * x)). auto_derive; auto.
      * apply density_continuous. lra.
Qed.
Example C112_distribution_instance : pl_cdf (1/2) 3 (activity_of math_lm (1/2) 3 0) = / 2 /\ (activity_of math_lm (1/2) 3 (-1) <= activity_of math_lm (1/2) 3 0 <-> -1 <= 0).
Proof.
  destruct (C112_activity_distribution math_lm (1/2) 3 math_lm_ok ltac:(lra) ltac:(lra) 0 (-1)) as (H1 & _ & H3). split; [|exact H1].
  rewrite H3. apply cdf_mean. lra.
Qed.
Example C112_initial_instance : exists md s' x, ad_ctor (a:=RA) math_lm mid_real_rng (activity_ops R) (mkActivity 0 0 1) rel_settings demo_net tt = Ok (md, s') /\
  nth_error (agents (ad_net md)) 2 = Some x /\ a_opinion x = 0 /\
  a_activity x = activity_of math_lm (1/100) (21/10) 0.
Proof.
  destruct (ctor_ok (a:=RA) math_lm mid_real_rng (activity_ops R) (mkActivity 0 0 1)%R rel_settings demo_net tt
    demo_wf eq_refl rel_fit) as (md & s' & E & _ & _ & _ & Ea & _); cbn; try lia.
  assert (L : (2 < length (agents (ad_net md)))%nat).
  { rewrite Ea, with_bot_values_length, drawn_agents_length. cbn. lia. }
  destruct (nth_error (agents (ad_net md)) 2) as [x|] eqn:Ex; [|apply nth_error_None in Ex; lia].
  exists md, s', x. split; [exact E|]. split; [exact Ex|].
  destruct (C112_initial_agents math_lm mid_real_rng (activity_ops (F RA)) (mkActivity 0 0 1) rel_settings demo_net tt md s' 2 x)
    as (t & G1 & G2); auto using activity_ops_ok, demo_wf, rel_fit; try (cbn; lia).
  split.
  - transitivity ((-1 + 1) / 2); [exact G1|field].
  - exact G2.
Qed.

Print Assumptions C112_activity_distribution.
Print Assumptions C112_activity_law.
Print Assumptions C112_mean_activity.
Print Assumptions C112_initial_agents.
