(** The Gaussian integral and elementary facts about the error function. *)
From Coq Require Import Reals Lra Psatz.
From Coquelicot Require Import Coquelicot.
From Verif Require Import SGauss.
Local Open Scope R_scope.

Ltac rring := match goal with |- ?u = ?w => change (@eq R u w) end; ring.

Definition g0 (t : R) : R := exp (- (t * t)).
Definition I0 (x : R) : R := RInt g0 0 x.

Lemma g0_cont x : continuous g0 x.
Proof. apply (ex_derive_continuous g0). unfold g0. auto_derive. auto. Qed.
Lemma g0_exint a b : ex_RInt g0 a b.
Proof. apply (ex_RInt_continuous (V:=R_CompleteNormedModule)). intros; apply g0_cont. Qed.
Lemma g0_pos x : 0 < g0 x.
Proof. apply exp_pos. Qed.
Lemma g0_le1 x : g0 x <= 1.
Proof. unfold g0. rewrite <- exp_0. destruct (Req_dec x 0) as [->|H]; [right; f_equal; ring|]. left. apply exp_increasing. nra. Qed.

Lemma I0_derive x : is_derive I0 x (g0 x).
Proof.
  apply (is_derive_RInt g0 I0 0 x).
  - exists (mkposreal 1 Rlt_0_1). intros y _. apply (RInt_correct (V:=R_CompleteNormedModule)), g0_exint.
  - apply g0_cont.
Qed.
Lemma I0_0 : I0 0 = 0.
Proof. apply (RInt_point 0 g0). Qed.

Definition h0 (x t : R) : R := exp (- (x * x) * (1 + t * t)) / (1 + t * t).
Definition J0 (x : R) : R := RInt (fun t => h0 x t) 0 1.

Lemma one_sq t : 0 < 1 + t * t. Proof. nra. Qed.

Lemma h0_dx x t : is_derive (fun u => h0 u t) x (-2 * x * exp (- (x * x) * (1 + t * t))).
Proof. pose proof (one_sq t). unfold h0. auto_derive; [auto|]. field. lra. Qed.

Lemma h0_Dx x t : Derive (fun u : R => h0 u t) x = -2 * x * exp (- (x * x) * (1 + t * t)).
Proof. apply is_derive_unique, h0_dx. Qed.

Lemma h0_exint x : ex_RInt (fun t => h0 x t) 0 1.
Proof.
  apply (ex_RInt_continuous (V:=R_CompleteNormedModule)). intros t _. pose proof (one_sq t).
  apply (ex_derive_continuous (fun t => h0 x t)). unfold h0. auto_derive. lra.
Qed.

Lemma J0_derive x : is_derive J0 x (-2 * g0 x * I0 x).
Proof.
  assert (E : RInt (fun t => Derive (fun u => h0 u t) x) 0 1 = -2 * g0 x * I0 x).
  { transitivity (RInt (fun t => -2 * g0 x * (x * g0 (x * t + 0))) 0 1).
    - apply RInt_ext. intros t _. rewrite h0_Dx. unfold g0.
      replace (- (x * x) * (1 + t * t)) with (- (x * x) + - ((x * t + 0) * (x * t + 0))) by ring.
      rewrite exp_plus. rring.
    - apply is_RInt_unique. 
      apply (is_RInt_scal (fun t => x * g0 (x * t + 0)) 0 1 (-2 * g0 x) (I0 x)).
      apply (is_RInt_comp_lin g0 x 0 0 1 (I0 x)).
      assert (E0 : x * 0 + 0 = 0) by ring. assert (E1 : x * 1 + 0 = x) by ring. rewrite E0, E1. apply (RInt_correct (V:=R_CompleteNormedModule)), g0_exint. }
  rewrite <- E. apply is_derive_RInt_param.
  - exists (mkposreal 1 Rlt_0_1). intros y _ t _. exact (ex_intro _ _ (h0_dx y t)).
  - intros t _.
    apply continuity_2d_pt_ext with (f := fun u v => -2 * u * exp (- (u * u) * (1 + v * v))).
    { intros u v. now rewrite h0_Dx. }
    apply continuity_2d_pt_mult.
    + apply continuity_2d_pt_mult; [apply continuity_2d_pt_const|apply continuity_2d_pt_id1].
    + apply (continuity_1d_2d_pt_comp exp (fun u v => - (u * u) * (1 + v * v))).
      * apply derivable_continuous_pt, derivable_pt_exp.
      * apply continuity_2d_pt_mult.
        -- apply continuity_2d_pt_opp, continuity_2d_pt_mult; apply continuity_2d_pt_id1.
        -- apply continuity_2d_pt_plus; [apply continuity_2d_pt_const|].
           apply continuity_2d_pt_mult; apply continuity_2d_pt_id2.
  - exists (mkposreal 1 Rlt_0_1). intros y _. apply h0_exint.
Qed.

Lemma J0_0 : J0 0 = PI / 4.
Proof.
  unfold J0. apply is_RInt_unique.
  apply (is_RInt_ext (fun t => / (1 + t * t))).
  { intros t _. unfold h0. replace (- (0 * 0) * (1 + t * t)) with 0 by ring. rewrite exp_0. unfold Rdiv. now rewrite Rmult_1_l. }
  replace (PI / 4) with (minus (atan 1) (atan 0)) by (rewrite atan_1, atan_0; unfold minus, plus, opp; cbn; ring).
  apply (is_RInt_derive atan (fun t => / (1 + t * t))).
  - intros t _. apply is_derive_Reals. replace (1 + t * t) with (1 + t ^ 2) by ring. apply derivable_pt_lim_atan.
  - intros t _. pose proof (one_sq t). apply (ex_derive_continuous (fun t => / (1 + t * t))). auto_derive. lra.
Qed.

(** The identity behind the Gaussian integral. *)
Lemma gauss_identity x : I0 x * I0 x + J0 x = PI / 4.
Proof.
  assert (H : forall y, is_derive (fun y => I0 y * I0 y + J0 y) y 0).
  { intros y.
    pose proof (is_derive_mult I0 I0 y _ _ (I0_derive y) (I0_derive y) (Rmult_comm)) as H1.
    pose proof (is_derive_plus _ _ y _ _ H1 (J0_derive y)) as H2.
    replace 0 with (plus (plus (mult (g0 y) (I0 y)) (mult (I0 y) (g0 y))) (-2 * g0 y * I0 y)) by (unfold plus, mult; cbn; ring). exact H2. }
  transitivity (I0 0 * I0 0 + J0 0); [|rewrite I0_0, J0_0; ring].
  destruct (Req_dec x 0) as [->|Hx]; [reflexivity|].
  destruct (MVT_gen (fun y => I0 y * I0 y + J0 y) 0 x (fun _ => 0)) as (c & _ & Ec).
  - intros y _. apply H.
  - intros y _. apply continuity_pt_filterlim, (ex_derive_continuous (fun y => I0 y * I0 y + J0 y)). eexists. apply H.
  - cbv beta in Ec. lra.
Qed.

Lemma J0_bounds x : 0 < J0 x <= PI / 4 * g0 x.
Proof.
  assert (Hc : forall t, continuous (fun t => h0 x t) t).
  { intros t. pose proof (one_sq t). apply (ex_derive_continuous (fun t => h0 x t)). unfold h0. auto_derive. lra. }
  assert (Hp : forall t, 0 < h0 x t).
  { intros t. unfold h0. apply Rdiv_lt_0_compat; [apply exp_pos|apply one_sq]. }
  split.
  - apply RInt_gt_0; [lra|intros; apply Hp|intros; apply Hc].
  - assert (Hat : is_RInt (fun t => / (1 + t * t)) 0 1 (PI / 4)).
    { rewrite <- J0_0. apply (is_RInt_ext (fun t => h0 0 t)).
      - intros t _. unfold h0. replace (- (0 * 0) * (1 + t * t)) with 0 by ring. rewrite exp_0. unfold Rdiv. rring.
      - apply (RInt_correct (V:=R_CompleteNormedModule)), h0_exint. }
    assert (Hat2 : is_RInt (fun t => g0 x * / (1 + t * t)) 0 1 (g0 x * (PI / 4))) by exact (is_RInt_scal _ 0 1 (g0 x) _ Hat).
    rewrite (Rmult_comm (PI / 4)).
    apply (is_RInt_le (fun t => h0 x t) (fun t => g0 x * / (1 + t * t)) 0 1); [lra| |exact Hat2|].
    + apply (RInt_correct (V:=R_CompleteNormedModule)), h0_exint.
    + intros t _. unfold h0, g0, Rdiv. apply Rmult_le_compat_r; [left; apply Rinv_0_lt_compat, one_sq|].
      destruct (Req_dec (x * t) 0) as [E|E].
      * right. f_equal. replace (- (x * x) * (1 + t * t)) with (- (x * x) - (x * t) * (x * t)) by ring. rewrite E. ring.
      * left. apply exp_increasing. replace (- (x * x) * (1 + t * t)) with (- (x * x) - (x * t) * (x * t)) by ring. nra.
Qed.

Lemma sqrt_PI_pos : 0 < sqrt PI.
Proof. apply sqrt_lt_R0, PI_RGT_0. Qed.
Lemma sqrt_PI_sq : sqrt PI * sqrt PI = PI.
Proof. apply sqrt_sqrt. left. apply PI_RGT_0. Qed.

Lemma Erf_I0 x : Erf x = 2 / sqrt PI * I0 x.
Proof. reflexivity. Qed.
Lemma Erf_derive x : is_derive Erf x (2 / sqrt PI * exp (- (x * x))).
Proof. exact (is_derive_scal I0 x (2 / sqrt PI) _ (I0_derive x)). Qed.
Lemma Erf_0 : Erf 0 = 0.
Proof. rewrite Erf_I0, I0_0. ring. Qed.
Lemma Erf_sq x : Erf x * Erf x = 1 - 4 / PI * J0 x.
Proof.
  rewrite Erf_I0. pose proof (gauss_identity x) as H. pose proof sqrt_PI_pos as Hs. pose proof PI_RGT_0 as Hp.
  replace (2 / sqrt PI * I0 x * (2 / sqrt PI * I0 x)) with (4 / (sqrt PI * sqrt PI) * (I0 x * I0 x)) by (field; lra).
  rewrite sqrt_PI_sq. replace (I0 x * I0 x) with (PI / 4 - J0 x) by lra. field. lra.
Qed.
Lemma Erf_sq_bounds x : 1 - g0 x <= Erf x * Erf x < 1.
Proof.
  rewrite Erf_sq. pose proof (J0_bounds x) as [H1 H2]. pose proof PI_RGT_0 as Hp.
  assert (E : 4 / PI * (PI / 4 * g0 x) = g0 x) by (field; lra).
  assert (H4 : 0 < 4 / PI) by (apply Rdiv_lt_0_compat; lra).
  split; [rewrite <- E at 1|]; nra.
Qed.
Lemma Erf_range x : -1 < Erf x < 1.
Proof. pose proof (Erf_sq_bounds x). split; nra. Qed.
Lemma Erf_abs x : Rabs (Erf x) < 1.
Proof. pose proof (Erf_range x). apply Rabs_def1; lra. Qed.
Lemma Erf_mvt x y : x < y -> exists c, x < c < y /\ Erf y - Erf x = 2 / sqrt PI * exp (- (c * c)) * (y - x).
Proof.
  intros H. destruct (MVT_cor2 Erf (fun c => 2 / sqrt PI * exp (- (c * c))) x y H) as (c & E & Hc).
  - intros c _. apply is_derive_Reals, Erf_derive.
  - exists c. split; [exact Hc|lra].
Qed.
Lemma Erf_incr x y : x < y -> Erf x < Erf y.
Proof.
  intros H. destruct (Erf_mvt x y H) as (c & _ & E). pose proof (exp_pos (- (c * c))). pose proof sqrt_PI_pos.
  assert (0 < 2 / sqrt PI) by (apply Rdiv_lt_0_compat; lra).
  assert (0 < 2 / sqrt PI * exp (- (c * c)) * (y - x)) by (repeat apply Rmult_lt_0_compat; lra). lra.
Qed.
Lemma Erf_pos x : 0 < x -> 0 < Erf x.
Proof. intros H. rewrite <- Erf_0. now apply Erf_incr. Qed.
Lemma Erf_opp x : Erf (- x) = - Erf x.
Proof.
  assert (H : forall y, is_derive (fun y => Erf y + Erf (- y)) y 0).
  { intros y. evar_last.
    - apply (is_derive_plus Erf (fun y => Erf (- y))); [apply Erf_derive|].
      apply (is_derive_comp Erf Ropp); [apply Erf_derive|]. instantiate (1 := -1). auto_derive; [auto|ring].
    - unfold plus, scal, opp, one; cbn. unfold mult; cbn. replace (- y * - y) with (y * y) by ring. ring. }
  destruct (MVT_gen (fun y => Erf y + Erf (- y)) 0 x (fun _ => 0)) as (c & _ & Ec).
  - intros y _. apply H.
  - intros y _. apply continuity_pt_filterlim, (ex_derive_continuous (fun y => Erf y + Erf (- y))). eexists. apply H.
  - cbv beta in Ec. rewrite Ropp_0, Erf_0 in Ec. lra.
Qed.
(** The upper tail. *)
Lemma Erf_tail x : 0 <= x -> 0 < 1 - Erf x <= exp (- (x * x)).
Proof.
  intros H. pose proof (Erf_sq_bounds x) as [H1 H2]. pose proof (Erf_range x). fold (g0 x).
  assert (0 <= Erf x). { destruct H as [H| <-]; [left; now apply Erf_pos|rewrite Erf_0; lra]. }
  split; nra.
Qed.
