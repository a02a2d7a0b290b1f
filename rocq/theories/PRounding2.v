(** Deffuant encounters on doubles: the sum of the opinions. *)
From Coq Require Import Reals Lra Psatz.
From Flocq Require Import Core.Core IEEE754.BinarySingleNaN.
From Verif Require Import Base BaseFacts Arith64 RFacts MRandom SRandom MNetwork SNetwork MAgents MDeGroot SDeGroot MDeffuant SDeffuant PDeffuant TDeffuant PFloat SRounding PRounding.
Local Open Scope R_scope.
#[local] Existing Instances vexp mexp.

Lemma hull_sum (x y m thr : float) M :
  is_finite x = true -> is_finite y = true -> is_finite m = true -> 0 <= B2R m <= 1/2 -> Rabs (B2R x) <= M -> Rabs (B2R y) <= M ->
  flt FA (fabs FA (fsub FA x y)) thr = true ->
  let v := fmul FA m (fsub FA x y) in
  Rabs (B2R (fsub FA x v : float) + B2R (fadd FA y v : float) - (B2R x + B2R y)) <= 2 * u64 * M.
Proof.
  intros Fx Fy Fm Hm Mx My Ht v. pose proof (hull_float x y m thr Fx Fy Fm Hm Ht) as (F1 & F2 & _ & _). fold v in F1, F2.
  cbn [flt fabs fsub fmul fadd FA] in *.
  pose proof (Bminus_correct prec emax Hprec Hprec_emax mode_NE x y Fx Fy) as C1. cbn [round_mode] in C1.
  set (d := Bminus mode_NE x y) in *.
  destruct (Rlt_bool_spec (Rabs (rnd (B2R x - B2R y))) (bpow radix2 emax)) as [Hlt|Hge].
  2: { exfalso. destruct C1 as [C1 _]. destruct d as [sd|sd| |sd md ed Hd]; cbn in C1; try discriminate.
       destruct sd; cbn in Ht; destruct thr as [st|st| |st mt et Ht']; try destruct st; discriminate. }
  destruct C1 as (Ed & Fd & _).
  pose proof (Bmult_correct prec emax Hprec Hprec_emax mode_NE m d) as C2. cbn [round_mode] in C2.
  assert (HD : Rabs (B2R m * B2R d) <= Rabs (B2R d)).
  { rewrite Rabs_mult, (Rabs_pos_eq (B2R m)) by lra. pose proof (Rabs_pos (B2R d)). nra. }
  assert (HR : Rabs (rnd (B2R m * B2R d)) <= Rabs (B2R d)).
  { apply abs_round_le_generic; auto with typeclass_instances. apply generic_format_abs. apply fmt_B2R. }
  rewrite Rlt_bool_true in C2.
  2: { eapply Rle_lt_trans; [exact HR|]. apply abs_B2R_lt_emax. }
  destruct C2 as (Ev & Fv & _). rewrite Fm, Fd in Fv. cbn in Fv.
  fold v in Ev, Fv. rewrite Ed in Ev.
  assert (HV : Rmin (B2R x) (B2R y) <= B2R x - B2R v <= Rmax (B2R x) (B2R y) /\ Rmin (B2R x) (B2R y) <= B2R y + B2R v <= Rmax (B2R x) (B2R y)).
  { destruct (Rle_lt_dec (B2R y) (B2R x)) as [H|H].
    - rewrite Rmin_right, Rmax_left by lra. pose proof (step_bound (B2R x) (B2R y) (B2R m) (fmt_B2R x) (fmt_B2R y) H Hm) as B. rewrite <- Ev in B. lra.
    - rewrite Rmin_left, Rmax_right by lra. pose proof (step_bound (B2R y) (B2R x) (B2R m) (fmt_B2R y) (fmt_B2R x) ltac:(lra) Hm) as B.
      assert (E : B2R v = - rnd (B2R m * rnd (B2R y - B2R x))).
      { rewrite Ev. replace (B2R x - B2R y) with (- (B2R y - B2R x)) by lra. rewrite rnd_opp.
        replace (B2R m * - rnd (B2R y - B2R x)) with (- (B2R m * rnd (B2R y - B2R x))) by lra. apply rnd_opp. }
      rewrite E. lra. }
  assert (Hlo : - M <= Rmin (B2R x) (B2R y)) by (apply Rmin_glb; apply Rabs_le_inv in Mx; apply Rabs_le_inv in My; lra).
  assert (Hhi : Rmax (B2R x) (B2R y) <= M) by (apply Rmax_lub; apply Rabs_le_inv in Mx; apply Rabs_le_inv in My; lra).
  destruct HV as (V1 & V2).
  destruct (hull_real (B2R x) (B2R y) (B2R m) (fmt_B2R x) (fmt_B2R y) Hm) as [H1 H2]. rewrite <- Ev in H1, H2.
  pose proof (Bminus_correct prec emax Hprec Hprec_emax mode_NE x v Fx Fv) as C3. cbn [round_mode] in C3.
  rewrite (between_small x y x _ Fx Fy H1) in C3. destruct C3 as (E3 & _ & _).
  pose proof (Bplus_correct prec emax Hprec Hprec_emax mode_NE y v Fy Fv) as C4. cbn [round_mode] in C4.
  rewrite (between_small x y x _ Fx Fy H2) in C4. destruct C4 as (E4 & _ & _).
  rewrite E3, E4.
  pose proof (rnd_plus_err (B2R x) (- B2R v) (fmt_B2R x) ltac:(apply generic_format_opp, fmt_B2R)) as R1.
  pose proof (rnd_plus_err (B2R y) (B2R v) (fmt_B2R y) (fmt_B2R v)) as R2.
  change (B2R x + - B2R v) with (B2R x - B2R v) in R1. pose proof u64_pos.
  assert (A1 : Rabs (B2R x - B2R v) <= M) by (apply Rabs_le; lra). assert (A2 : Rabs (B2R y + B2R v) <= M) by (apply Rabs_le; lra).
  replace (rnd (B2R x - B2R v) + rnd (B2R y + B2R v) - (B2R x + B2R y)) with
    ((rnd (B2R x - B2R v) - (B2R x - B2R v)) + (rnd (B2R y + B2R v) - (B2R y + B2R v))) by ring.
  eapply Rle_trans; [apply Rabs_triang|]. nra.
Qed.


Lemma meets_float (thr mu : float) i j (xs xs' : list float) : (i < length xs)%nat -> (j < length xs)%nat -> @meets FA thr mu i j xs xs' ->
  let x := nth i xs (f0 FA) in let y := nth j xs (f0 FA) in let v := fmul FA mu (fsub FA x y) in
  xs' = xs \/
  (flt FA (fabs FA (fsub FA x y)) thr = true /\ i <> j /\ xs' = upd (upd xs i (fsub FA x v)) j (fadd FA y v)) \/
  (i = j /\ xs' = upd xs i (fadd FA (fsub FA x v) v)).
Proof.
  intros Hi Hj (HL & HK & HM) x y v. specialize (HM x y (nth_error_nth' _ _ Hi) (nth_error_nth' _ _ Hj)). cbv zeta in HM.
  destruct (flt FA (fabs FA (fsub FA x y)) thr) eqn:T; [|now left]. right. destruct HM as [H1 H2]. destruct (Nat.eq_dec i j) as [Ee|Hne].
  - right. split; [exact Ee|]. specialize (H2 Ee). apply list_ext. intros k. destruct (Nat.eq_dec k i) as [->|Hk].
    + rewrite nth_error_upd_eq by exact Hi. exact H2.
    + rewrite nth_error_upd_neq by auto. apply HK; congruence.
  - left. split; [reflexivity|]. split; [exact Hne|]. destruct (H1 Hne) as [E1 E2]. apply list_ext. intros k.
    destruct (Nat.eq_dec k j) as [->|Hkj].
    + rewrite nth_error_upd_eq; [exact E2|rewrite upd_length; exact Hj].
    + rewrite nth_error_upd_neq by auto. destruct (Nat.eq_dec k i) as [->|Hki].
      * rewrite nth_error_upd_eq by exact Hi. exact E1.
      * rewrite nth_error_upd_neq by auto. now apply HK.
Qed.

Lemma values_upd xs i (x : float) : values (upd xs i x) = upd (values xs) i (B2R x).
Proof. revert i. induction xs as [|y xs IH]; intros [|i]; cbn [upd values map]; auto. f_equal. apply IH. Qed.
Lemma values_nth xs i : nth i (values xs) 0 = B2R (nth i xs (f0 FA) : float).
Proof. unfold values. change 0 with ((fun x : float => B2R x) (f0 FA)). apply (map_nth (fun x : float => B2R x)). Qed.


Lemma meets_drift (thr mu : float) i j (xs xs' : list float) M : (i < length xs)%nat -> (j < length xs)%nat ->
  is_finite mu = true -> 0 <= B2R mu <= 1/2 -> Forall (small_finite M) xs -> @meets FA thr mu i j xs xs' ->
  Forall (small_finite M) xs' /\ Rabs (Rsum (values xs') - Rsum (values xs)) <= 2 * u64 * M.
Proof.
  intros Hi Hj Fm Hm HF HM. assert (HV : length (values xs) = length xs) by (unfold values; apply map_length). rewrite Forall_forall in HF.
  set (x := nth i xs (f0 FA) : float). set (y := nth j xs (f0 FA) : float).
  destruct (HF x (nth_In xs _ Hi)) as (Fx & Mx). destruct (HF y (nth_In xs _ Hj)) as (Fy & My).
  assert (M0 : 0 <= 2 * u64 * M) by (pose proof u64_pos; pose proof (Rabs_pos (B2R x)); assert (0 <= u64 * M) by (apply Rmult_le_pos; lra); lra).
  assert (FU : forall l k (z : float), Forall (small_finite M) l -> small_finite M z -> Forall (small_finite M) (upd l k z)).
  { clear. induction l as [|w l IH]; intros [|k] z HL Hz; cbn [upd]; auto; inversion HL; subst; constructor; auto. }
  assert (HF' : Forall (small_finite M) xs) by (apply Forall_forall; exact HF).
  destruct (meets_float thr mu i j xs xs' Hi Hj HM) as [->|[(T & Hne & ->)|(Ee & ->)]].
  - split; [exact HF'|]. rewrite Rminus_eq_0, Rabs_R0. exact M0.
  - fold x y in T |- *. destruct (hull_float x y mu thr Fx Fy Fm Hm T) as (G1 & G2 & G3 & G4).
    pose proof (hull_sum x y mu thr M Fx Fy Fm Hm Mx My T) as S. cbv zeta in S.
    assert (Hlo : - M <= Rmin (B2R x) (B2R y)) by (apply Rmin_glb; apply Rabs_le_inv in Mx; apply Rabs_le_inv in My; lra).
    assert (Hhi : Rmax (B2R x) (B2R y) <= M) by (apply Rmax_lub; apply Rabs_le_inv in Mx; apply Rabs_le_inv in My; lra).
    split.
    + apply FU; [apply FU; [exact HF'|]|]; (split; [assumption|]); apply Rabs_le; lra.
    + rewrite !values_upd. rewrite Rsum_upd by (rewrite upd_length, HV; exact Hj). rewrite nth_upd_neq by auto. rewrite Rsum_upd by (rewrite HV; exact Hi).
      rewrite !values_nth. fold x y. match goal with |- Rabs ?e <= _ => match type of S with Rabs ?e' <= _ => replace e with e' by ring end end. exact S.
  - fold x y. assert (Exy : y = x) by (unfold x, y; now rewrite Ee). rewrite Exy. destruct (self_float x mu x Fx Fm) as [S1 S2].
    split.
    + apply FU; [exact HF'|]. split; [exact S1|]. cbv zeta in S2. rewrite S2. exact Mx.
    + rewrite values_upd, Rsum_upd by (rewrite HV; exact Hi). rewrite values_nth. fold x. cbv zeta in S2. rewrite S2. replace (Rsum (values xs) - B2R x + B2R x - Rsum (values xs)) with 0 by ring. rewrite Rabs_R0. exact M0.
Qed.

Lemma met_drift (thr mu : float) (ps : list (nat * nat)) : forall (xs xs' : list float) M n, is_finite mu = true -> 0 <= B2R mu <= 1/2 ->
  @met FA thr mu xs ps xs' -> length xs = n -> Forall (fun p => (fst p < n)%nat /\ (snd p < n)%nat) ps -> Forall (small_finite M) xs ->
  Forall (small_finite M) xs' /\ Rabs (Rsum (values xs') - Rsum (values xs)) <= INR (length ps) * (2 * u64 * M).
Proof.
  intros xs xs' M n Fm Hm HM. induction HM as [xs|xs i j xs1 ps xs2 M1 HM IH]; intros HL HV HF.
  - split; [exact HF|]. rewrite Rminus_eq_0, Rabs_R0. cbn [length INR]. lra.
  - inversion HV as [|p ps' (V1 & V2) HV']; subst. cbn [fst snd] in V1, V2.
    destruct (meets_drift thr mu i j xs xs1 M V1 V2 Fm Hm HF M1) as (F1 & D1).
    destruct (IH (proj1 M1) HV' F1) as (F2 & D2). split; [exact F2|]. cbn [length]. rewrite S_INR.
    replace (Rsum (values xs2) - Rsum (values xs)) with ((Rsum (values xs2) - Rsum (values xs1)) + (Rsum (values xs1) - Rsum (values xs))) by ring.
    eapply Rle_trans; [apply Rabs_triang|]. lra.
Qed.
