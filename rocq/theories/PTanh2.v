(** Concavity of tanh on positive numbers and the positive solution of p = S tanh(alpha p). *)
From Verif Require Import PTanh.
From Coq Require Import Reals Lra Psatz.
Local Open Scope R_scope.

Lemma tanh_derivative x : derivable_pt_lim tanh x (1 - tanh x * tanh x).
Proof.
  pose proof (cosh_pos x) as P.
  assert (E : 1 - tanh x * tanh x = (cosh x * cosh x - sinh x * sinh x) / Rsqr (cosh x)).
  { unfold tanh, Rsqr. field. lra. }
  rewrite E. apply (derivable_pt_lim_div sinh cosh); [apply derivable_pt_lim_sinh|apply derivable_pt_lim_cosh|lra].
Qed.
Lemma tanh_mvt a b : a < b -> exists c, tanh b - tanh a = (1 - tanh c * tanh c) * (b - a) /\ a < c < b.
Proof. intros H. exact (MVT_cor2 tanh (fun x => 1 - tanh x * tanh x) a b H (fun c _ => tanh_derivative c)). Qed.
Lemma sech_decreasing a b : 0 <= a -> a < b -> 1 - tanh b * tanh b < 1 - tanh a * tanh a.
Proof. intros Ha H. pose proof (tanh_nonneg a Ha). pose proof (tanh_increasing a b H). nra. Qed.
Lemma sech_pos a : 0 < 1 - tanh a * tanh a.
Proof. exact (proj1 (tanh_factor a a)). Qed.
Lemma sech_le_1 a : 1 - tanh a * tanh a <= 1.
Proof. nra. Qed.
Lemma tanh_key a : 0 < a -> a * (1 - tanh a * tanh a) < tanh a.
Proof.
  intros H. destruct (tanh_mvt 0 a H) as (c & E & Hc). rewrite tanh_0 in E. pose proof (sech_decreasing c a ltac:(lra) ltac:(lra)). nra.
Qed.
(** Three points 0 <= a <= b <= d: the point at b lies above the chord. *)
Lemma tanh_concave a b d : 0 <= a -> a <= b <= d -> (tanh d - tanh b) * (b - a) <= (tanh b - tanh a) * (d - b).
Proof.
  intros Ha Hb. destruct (Req_dec a b) as [->|N1]; [lra|]. destruct (Req_dec b d) as [->|N2]; [lra|].
  destruct (tanh_mvt a b ltac:(lra)) as (u & E1 & Hu). destruct (tanh_mvt b d ltac:(lra)) as (v & E2 & Hv). rewrite E1, E2.
  pose proof (sech_decreasing u v ltac:(lra) ltac:(lra)). assert (0 < (b - a) * (d - b)) by nra. nra.
Qed.
Lemma tanh_scale l x : 0 <= l <= 1 -> 0 <= x -> l * tanh x <= tanh (l * x).
Proof.
  intros Hl Hx. destruct (Req_dec x 0) as [->|N]; [rewrite Rmult_0_r, tanh_0; lra|].
  pose proof (tanh_concave 0 (l * x) x ltac:(lra) ltac:(nra)) as C. rewrite tanh_0 in C.
  assert (x * (l * tanh x) <= x * tanh (l * x)) by nra. apply Rmult_le_reg_l with x; lra.
Qed.

(** ** The equation p = S tanh(alpha p) *)
Definition balance (S al p : R) : Prop := 0 < p /\ S * tanh (al * p) = p.
Lemma balance_exists S al : 0 < al -> 1 < S * al -> exists p, balance S al p /\ S - / al <= p < S.
Proof.
  intros Ha HS. assert (Hia : 0 < / al) by (now apply Rinv_0_lt_compat).
  assert (Hp : / al < S). { apply Rmult_lt_reg_r with al; auto. rewrite Rinv_l by lra. exact HS. }
  set (p0 := S - / al). assert (Hp0 : 0 < p0) by (unfold p0; lra).
  set (f := fun p => p - S * tanh (al * p)).
  assert (Cf : forall x, continuity_pt f x).
  { intros x. apply derivable_continuous_pt. exists (1 - S * ((1 - tanh (al * x) * tanh (al * x)) * al)).
    apply (derivable_pt_lim_minus (fun p => p) (fun p => S * tanh (al * p))); [apply derivable_pt_lim_id|].
    apply (derivable_pt_lim_scal (fun p => tanh (al * p))). apply (derivable_pt_lim_comp (fun p => al * p) tanh); [|apply tanh_derivative].
    pose proof (derivable_pt_lim_scal id al x 1 (derivable_pt_lim_id x)) as Q. rewrite Rmult_1_r in Q. exact Q. }
  assert (F0 : f p0 <= 0).
  { unfold f. pose proof (tanh_ge (al * p0) ltac:(nra)) as T. assert (E : 1 + al * p0 = S * al) by (unfold p0; field; lra). rewrite E in T.
    assert (S * (al * p0 / (S * al)) <= S * tanh (al * p0)) by (apply Rmult_le_compat_l; lra).
    replace (S * (al * p0 / (S * al))) with p0 in H by (field; split; lra). lra. }
  assert (F1 : 0 < f S). { unfold f. pose proof (tanh_abs_lt_1 (al * S)) as T. apply Rabs_def2 in T. nra. }
  destruct F0 as [F0|F0].
  - destruct (Ranalysis5.IVT_interv f p0 S ltac:(intros; apply Cf) ltac:(unfold p0; lra) F0 F1) as (p & Hpp & Ep). exists p.
    unfold f in Ep. split; [split; lra|]. split; [apply Hpp|]. destruct (proj2 Hpp) as [|E]; auto. subst p. unfold f in F1. lra.
  - exists p0. unfold f in F0. split; [split; lra|]. unfold p0. lra.
Qed.
Lemma balance_pos S al p : 0 < al -> balance S al p -> 0 < S /\ p < S.
Proof.
  intros Ha (Hp & E). pose proof (tanh_pos (al * p) ltac:(nra)) as T. pose proof (tanh_abs_lt_1 (al * p)) as T1. apply Rabs_def2 in T1.
  assert (0 < S). { destruct (Rle_lt_dec S 0) as [N|N]; auto. nra. } split; auto. nra.
Qed.
(** Below the solution the pull exceeds the opinion, above it it falls short of it. *)
Lemma balance_below S al p x : 0 < al -> balance S al p -> 0 <= x <= p -> x <= S * tanh (al * x).
Proof.
  intros Ha HB Hx. destruct (balance_pos S al p Ha HB) as (HS & _). destruct HB as (Hp & E).
  pose proof (tanh_scale (x / p) (al * p)) as T.
  assert (0 <= x / p <= 1). { split; [apply Rmult_le_pos; [lra|apply Rlt_le, Rinv_0_lt_compat; lra]|]. apply Rmult_le_reg_r with p; auto. replace (x / p * p) with x by (field; lra). lra. }
  specialize (T H ltac:(nra)). replace (x / p * (al * p)) with (al * x) in T by (field; lra).
  assert (S * (x / p * tanh (al * p)) <= S * tanh (al * x)) by (apply Rmult_le_compat_l; lra).
  replace (S * (x / p * tanh (al * p))) with (x / p * (S * tanh (al * p))) in H0 by ring. rewrite E in H0. replace (x / p * p) with x in H0 by (field; lra). exact H0.
Qed.
Lemma balance_unique S al p p' : 0 < al -> balance S al p -> balance S al p' -> p = p'.
Proof.
  assert (W : forall p p', 0 < al -> balance S al p -> balance S al p' -> p < p' -> False).
  { clear. intros p p' Ha (Hp & E) (Hp' & E') H. destruct (balance_pos S al p Ha (conj Hp E)) as (HS & _).
    destruct (tanh_mvt (al * p) (al * p') ltac:(nra)) as (c & Ec & Hc).
    pose proof (tanh_key (al * p) ltac:(nra)) as TK. pose proof (sech_decreasing (al * p) c ltac:(nra) ltac:(lra)) as D.
    assert (A1 : S * tanh (al * p') - S * tanh (al * p) = S * al * (1 - tanh c * tanh c) * (p' - p)) by (rewrite <- Rmult_minus_distr_l, Ec; ring). rewrite E, E' in A1.
    assert (A2 : S * al * (1 - tanh c * tanh c) = 1) by (apply Rmult_eq_reg_r with (p' - p); lra).
    assert (A3 : S * al * (1 - tanh (al * p) * tanh (al * p)) < 1).
    { apply Rmult_lt_reg_r with p; auto. rewrite Rmult_1_l. replace (S * al * (1 - tanh (al * p) * tanh (al * p)) * p) with (S * (al * p * (1 - tanh (al * p) * tanh (al * p)))) by ring.
      apply Rlt_le_trans with (S * tanh (al * p)); [apply Rmult_lt_compat_l; auto|lra]. }
    assert (0 < S * al) by nra. nra. }
  intros Ha H1 H2. destruct (Rtotal_order p p') as [H|[H|H]]; auto; exfalso; eauto.
Qed.
(** The slope at the solution is less than 1. *)
Lemma balance_slope S al p : 0 < al -> balance S al p -> S * al * (1 - tanh (al * p) * tanh (al * p)) < 1.
Proof.
  intros Ha (Hp & E). destruct (balance_pos S al p Ha (conj Hp E)) as (HS & _). pose proof (tanh_key (al * p) ltac:(nra)) as TK.
  apply Rmult_lt_reg_r with p; auto. rewrite Rmult_1_l. replace (S * al * (1 - tanh (al * p) * tanh (al * p)) * p) with (S * (al * p * (1 - tanh (al * p) * tanh (al * p)))) by ring.
  apply Rlt_le_trans with (S * tanh (al * p)); [apply Rmult_lt_compat_l; auto|lra].
Qed.
(** ... and still nearby. *)
Lemma balance_slope_near S al p b : 0 < al -> balance S al p -> S * al * (1 - tanh (al * p) * tanh (al * p)) < b ->
  exists d, 0 < d < p /\ S * al * (1 - tanh (al * (p - d)) * tanh (al * (p - d))) < b.
Proof.
  intros Ha HB Hb. destruct (balance_pos S al p Ha HB) as (HS & HpS). destruct HB as (Hp & E).
  set (gap := b - S * al * (1 - tanh (al * p) * tanh (al * p))) in *.
  assert (Hg : 0 < gap) by (unfold gap; lra). assert (HSa : 0 < S * al * (2 * al)) by (apply Rmult_lt_0_compat; nra).
  set (d := Rmin (p / 2) (gap / (2 * (S * al * (2 * al))))). 
  assert (Hd : 0 < d). { unfold d. apply Rmin_glb_lt; [lra|]. apply Rdiv_lt_0_compat; lra. }
  assert (Hd1 : d <= p / 2) by apply Rmin_l.
  assert (Hd2 : S * al * (2 * al) * d <= gap / 2).
  { apply Rle_trans with (S * al * (2 * al) * (gap / (2 * (S * al * (2 * al))))); [apply Rmult_le_compat_l; [lra|apply Rmin_r]|]. right. field. split; lra. }
  exists d. split; [lra|].
  pose proof (tanh_lipschitz (al * p) (al * (p - d))) as L. replace (al * p - al * (p - d)) with (al * d) in L by ring.
  rewrite (Rabs_right (al * d)) in L by nra. pose proof (Rle_abs (tanh (al * p) - tanh (al * (p - d)))) as L'.
  set (t := tanh (al * p)) in *. set (t' := tanh (al * (p - d))) in *.
  assert (0 < t < 1). { split; [apply tanh_pos; nra|]. pose proof (tanh_abs_lt_1 (al * p)) as T. apply Rabs_def2 in T. unfold t. lra. }
  assert (0 <= t') by (apply tanh_nonneg; nra). assert (t' <= t) by (apply tanh_monotone; nra).
  assert (t * t - t' * t' <= 2 * (al * d)) by nra.
  assert (S * al * (1 - t' * t') <= S * al * (1 - t * t) + S * al * (2 * (al * d))).
  { rewrite <- Rmult_plus_distr_l. apply Rmult_le_compat_l; nra. }
  unfold gap in *. nra.
Qed.
