(** Proofs: iterated integrals, and the law of reservoir sampling with one slot. *)
From Verif Require Import Base BaseFacts Arith64 MRandom SRandom PRandom SProb.
From Coq Require Import Permutation Reals Lra.
From Coquelicot Require Import Coquelicot.
Local Open Scope R_scope.

Definition unit_list (us : list R) : Prop := List.Forall (fun u => 0 < u < 1) us.

(** the same with no exceptional values *)
Fixpoint sexpects (n : nat) (f : list R -> R) (v : R) : Prop :=
  match n with
  | O => f [] = v
  | S n' => exists h : R -> R,
      (forall u, 0 < u < 1 -> sexpects n' (fun us => f (u :: us)) (h u)) /\ is_RInt h 0 1 v
  end.
Lemma sexpects_expects n : forall f v, sexpects n f v -> expects n f v.
Proof. induction n as [|n IH]; intros f v H; cbn in *; auto. destruct H as (h & H1 & H2). exists h, nil. split; auto. Qed.

Lemma sexpects_ext n : forall f g v, (forall us, length us = n -> unit_list us -> f us = g us) -> sexpects n g v -> sexpects n f v.
Proof.
  induction n as [|n IH]; intros f g v H E; cbn in *.
  - rewrite H; auto. constructor.
  - destruct E as (h & H1 & H2). exists h. split; auto. intros u Hu. apply (IH _ (fun us => g (u :: us))); auto.
    intros us HL HU. apply H; [cbn; congruence|constructor; auto].
Qed.
Lemma is_RInt_const01 (c : R) : is_RInt (fun _ => c) 0 1 c.
Proof. pose proof (is_RInt_const 0 1 c) as H. unfold scal in H. cbn in H. unfold mult in H. cbn in H. now replace ((1 - 0) * c) with c in H by ring. Qed.
Lemma sexpects_const n : forall c, sexpects n (fun _ => c) c.
Proof.
  induction n as [|n IH]; intros c; cbn; auto. exists (fun _ => c). split; auto.
  apply is_RInt_const01.
Qed.
Lemma sexpects_unique n : forall f v v', sexpects n f v -> sexpects n f v' -> v = v'.
Proof.
  induction n as [|n IH]; intros f v v' E E'; cbn in *; [congruence|].
  destruct E as (h & H1 & H2), E' as (h' & H1' & H2').
  assert (E2 : is_RInt h 0 1 v').
  { apply (is_RInt_ext h'); auto. intros x Hx. rewrite Rmin_left, Rmax_right in Hx by lra. eapply IH; [apply H1'|apply H1]; auto. }
  rewrite <- (is_RInt_unique _ _ _ _ H2). now apply is_RInt_unique.
Qed.
Lemma sexpects_range n : forall f v lo hi, (forall us, length us = n -> unit_list us -> lo <= f us <= hi) ->
  sexpects n f v -> lo <= v <= hi.
Proof.
  induction n as [|n IH]; intros f v lo hi H E; cbn in *; [subst; apply H; auto; constructor|].
  destruct E as (h & H1 & H2).
  assert (B : forall u, 0 < u < 1 -> lo <= h u <= hi).
  { intros u Hu. apply (IH (fun us => f (u :: us)) (h u) lo hi); auto. intros us HL HU. apply H; cbn; auto. constructor; auto. }
  split.
  - apply (is_RInt_le (fun _ => lo) h 0 1); auto; [lra|apply is_RInt_const01|]. intros x Hx. now apply B.
  - apply (is_RInt_le h (fun _ => hi) 0 1); auto; [lra|apply is_RInt_const01|]. intros x Hx. now apply B.
Qed.

(** ** Exceptional values *)
Lemma is_RInt_fin (f g : R -> R) (E : list R) : forall a b v, a <= b -> (forall x, a < x < b -> ~ In x E -> f x = g x) ->
  is_RInt f a b v -> is_RInt g a b v.
Proof.
  induction E as [|e E IH]; intros a b v Hab H HI.
  - apply (is_RInt_ext f); auto. intros x Hx. rewrite Rmin_left, Rmax_right in Hx by lra. apply H; auto.
  - destruct (Rlt_dec a e) as [H1|H1]; [destruct (Rlt_dec e b) as [H2|H2]|].
    + assert (X1 : ex_RInt f a e) by (apply (ex_RInt_Chasles_1 (V:=R_CompleteNormedModule) f a e b); [lra|exists v; auto]).
      assert (X2 : ex_RInt f e b) by (apply (ex_RInt_Chasles_2 (V:=R_CompleteNormedModule) f a e b); [lra|exists v; auto]).
      destruct X1 as [v1 X1], X2 as [v2 X2].
      pose proof (is_RInt_Chasles (V:=R_NormedModule) f a e b _ _ X1 X2) as X3.
      assert (Ev : v = plus v1 v2). { rewrite <- (is_RInt_unique (V:=R_CompleteNormedModule) _ _ _ _ HI). exact (is_RInt_unique (V:=R_CompleteNormedModule) _ _ _ _ X3). }
      rewrite Ev. apply (is_RInt_Chasles (V:=R_NormedModule)) with e; apply IH; auto; try lra;
        intros x Hx Nx; apply H; try lra; intros [->|Hi]; auto; lra.
    + apply IH; auto. intros x Hx Nx. apply H; auto. intros [->|Hi]; auto; lra.
    + apply IH; auto. intros x Hx Nx. apply H; auto. intros [->|Hi]; auto; lra.
Qed.
Lemma off_list (E : list R) : forall a b, a < b -> exists x, a < x < b /\ ~ In x E.
Proof.
  induction E as [|e E IH]; intros a b Hab; [exists ((a + b) / 2); split; [lra|auto]|].
  destruct (Rlt_dec a e) as [H1|H1].
  - destruct (IH a (Rmin e b)) as (x & Hx & Nx); [apply Rmin_glb_lt; lra|]. pose proof (Rmin_l e b). pose proof (Rmin_r e b).
    exists x. split; [lra|]. intros [->|Hi]; auto; lra.
  - destruct (IH a b Hab) as (x & Hx & Nx). exists x. split; auto. intros [->|Hi]; auto; lra.
Qed.
Lemma expects_ext n : forall f g v, (forall us, length us = n -> unit_list us -> f us = g us) -> expects n g v -> expects n f v.
Proof.
  induction n as [|n IH]; intros f g v H E; cbn in *.
  - rewrite H; auto. constructor.
  - destruct E as (h & ex & H1 & H2). exists h, ex. split; auto. intros u Hu Nu. apply (IH _ (fun us => g (u :: us))); auto.
    intros us HL HU. apply H; [cbn; congruence|constructor; auto].
Qed.
Lemma expects_const n : forall c, expects n (fun _ => c) c.
Proof. intros c. apply sexpects_expects, sexpects_const. Qed.
Lemma expects_unique n : forall f v v', expects n f v -> expects n f v' -> v = v'.
Proof.
  induction n as [|n IH]; intros f v v' E E'; cbn in *; [congruence|].
  destruct E as (h & ex & H1 & H2), E' as (h' & ex' & H1' & H2').
  assert (E2 : is_RInt h 0 1 v').
  { apply (is_RInt_fin h' h (ex ++ ex') 0 1); auto; [lra|]. intros x Hx Nx. rewrite in_app_iff in Nx. eapply IH; [apply H1'|apply H1]; auto. }
  rewrite <- (is_RInt_unique _ _ _ _ H2). now apply is_RInt_unique.
Qed.
Lemma expects_range n : forall f v lo hi, (forall us, length us = n -> unit_list us -> lo <= f us <= hi) ->
  expects n f v -> lo <= v <= hi.
Proof.
  induction n as [|n IH]; intros f v lo hi H E; cbn in *; [subst; apply H; auto; constructor|].
  destruct E as (h & ex & H1 & H2).
  assert (B : forall u, 0 < u < 1 -> ~ In u ex -> lo <= h u <= hi).
  { intros u Hu Nu. apply (IH (fun us => f (u :: us)) (h u) lo hi); auto. intros us HL HU. apply H; cbn; auto. constructor; auto. }
  assert (H3 : is_RInt (fun u => if in_dec Req_EM_T u ex then lo else h u) 0 1 v).
  { apply (is_RInt_fin h _ ex 0 1); auto; [lra|]. intros x Hx Nx. destruct (in_dec Req_EM_T x ex); [contradiction|reflexivity]. }
  assert (Hlh : lo <= hi) by (destruct (off_list ex 0 1 ltac:(lra)) as (x & Hx & Nx); specialize (B x Hx Nx); lra).
  split.
  - apply (is_RInt_le (fun _ => lo) (fun u => if in_dec Req_EM_T u ex then lo else h u) 0 1); auto; [lra|apply is_RInt_const01|]. intros x Hx. destruct (in_dec Req_EM_T x ex); [lra|]. now apply B.
  - apply (is_RInt_le (fun u => if in_dec Req_EM_T u ex then lo else h u) (fun _ => hi) 0 1); auto; [lra|apply is_RInt_const01|]. intros x Hx. destruct (in_dec Req_EM_T x ex); [lra|]. now apply B.
Qed.
Lemma expects_lin n : forall f g v v' c d, expects n f v -> expects n g v' -> expects n (fun us => c * f us + d * g us) (c * v + d * v').
Proof.
  induction n as [|n IH]; intros f g v v' c d E E'; cbn in *; [subst; reflexivity|].
  destruct E as (h & ex & H1 & H2), E' as (h' & ex' & H1' & H2').
  exists (fun u => c * h u + d * h' u), (ex ++ ex'). split.
  - intros u Hu Nu. rewrite in_app_iff in Nu. apply IH; [apply H1|apply H1']; auto.
  - apply (is_RInt_plus (V:=R_NormedModule)); now apply (is_RInt_scal (V:=R_NormedModule)).
Qed.

(** ** Two integrals *)
Lemma rpower_one p : Rpower 1 p = 1.
Proof. unfold Rpower. rewrite ln_1, Rmult_0_r. apply exp_0. Qed.
Lemma Rpower_lt1 t p : 0 < t < 1 -> 0 < p -> 0 < Rpower t p < 1.
Proof.
  intros Ht Hp. unfold Rpower. split; [apply exp_pos|]. rewrite <- exp_0. apply exp_increasing.
  assert (ln t < 0) by (rewrite <- ln_1; apply ln_increasing; lra). nra.
Qed.

Lemma int_affine_power t p : 0 < t < 1 -> 0 <= p ->
  is_RInt (fun u => Rpower (u * (1 - t) + t) p) 0 1 ((1 - Rpower t (p + 1)) / ((1 - t) * (p + 1))).
Proof.
  intros Ht Hp.
  replace ((1 - Rpower t (p + 1)) / ((1 - t) * (p + 1)))
    with (minus (Rpower (1 * (1 - t) + t) (p + 1) / ((1 - t) * (p + 1))) (Rpower (0 * (1 - t) + t) (p + 1) / ((1 - t) * (p + 1)))).
  2: { unfold minus, plus, opp. cbn. replace (1 * (1 - t) + t) with 1 by lra. replace (0 * (1 - t) + t) with t by lra.
       rewrite rpower_one. field. split; lra. }
  apply (is_RInt_derive (fun u => Rpower (u * (1 - t) + t) (p + 1) / ((1 - t) * (p + 1)))).
  - intros x Hx. rewrite Rmin_left, Rmax_right in Hx by lra. assert (Hpos : 0 < x * (1 - t) + t) by nra.
    unfold Rpower. auto_derive; [exact Hpos|].
    replace ((p + 1) * ln (x * (1 - t) + t)) with (p * ln (x * (1 - t) + t) + ln (x * (1 - t) + t)) by ring.
    rewrite exp_plus, (exp_ln _ Hpos). field. repeat split; lra.
  - intros x Hx. rewrite Rmin_left, Rmax_right in Hx by lra. assert (Hpos : 0 < x * (1 - t) + t) by nra.
    apply continuity_pt_filterlim. apply derivable_continuous_pt. unfold Rpower.
    apply ex_derive_Reals_0. auto_derive. exact Hpos.
Qed.

Definition pw (p u : R) : R := if Rle_dec u 0 then 0 else Rpower u p.
Lemma pw_small p eps h : 0 < p -> 0 < eps -> Rabs h < Rpower eps (1 / p) -> 0 <= pw p h < eps.
Proof.
  intros Hp He Hh. unfold pw. destruct (Rle_dec h 0); [lra|]. rewrite Rabs_pos_eq in Hh by lra.
  split; [left; apply exp_pos|].
  replace eps with (Rpower (Rpower eps (1 / p)) p).
  - apply Rlt_Rpower_l; [auto|split; [lra|exact Hh]].
  - rewrite Rpower_mult. replace (1 / p * p) with 1 by (field; lra). now apply Rpower_1.
Qed.
Lemma pw_continuous p x : 0 < p -> continuity_pt (pw p) x.
Proof.
  intros Hp. destruct (Rtotal_order x 0) as [Hx|[->|Hx]].
  - apply (continuity_pt_locally_ext (fun _ => 0) (pw p) (- x)); [lra| |apply continuity_pt_const; intros ? ?; reflexivity].
    intros y Hy. unfold R_dist in Hy. unfold pw. destruct (Rle_dec y 0); auto. exfalso. revert Hy. unfold Rabs. destruct (Rcase_abs (y - x)); lra.
  - intros eps He. exists (Rpower eps (1 / p)). split; [apply exp_pos|]. intros y [_ Hy]. cbn in *. unfold R_dist in *.
    rewrite Rminus_0_r in Hy. pose proof (pw_small p eps y Hp He Hy) as H. unfold pw at 2. destruct (Rle_dec 0 0); [|lra].
    rewrite Rminus_0_r, Rabs_pos_eq; lra.
  - apply (continuity_pt_locally_ext (fun u => Rpower u p) (pw p) x); [lra| |].
    + intros y Hy. unfold pw. destruct (Rle_dec y 0); auto. exfalso. unfold R_dist in Hy. revert Hy. unfold Rabs. destruct (Rcase_abs (y - x)); lra.
    + apply derivable_continuous_pt. unfold Rpower. apply ex_derive_Reals_0. auto_derive. exact Hx.
Qed.
Lemma pw_derive p x : 0 < p -> is_derive (fun u => pw (p + 1) u / (p + 1)) x (pw p x).
Proof.
  intros Hp. destruct (Rtotal_order x 0) as [Hx|[->|Hx]].
  - apply (is_derive_ext_loc (fun _ => 0)).
    + exists (mkposreal (- x) ltac:(lra)). intros y Hy. cbn in Hy. unfold ball in Hy. cbn in Hy. unfold AbsRing_ball, abs, minus, plus, opp in Hy. cbn in Hy.
      unfold pw. destruct (Rle_dec y 0); [lra|]. exfalso. revert Hy. unfold Rabs. destruct (Rcase_abs (y + - x)); lra.
    + unfold pw. destruct (Rle_dec x 0); [|lra]. apply (is_derive_const (K:=R_AbsRing) 0 x).
  - apply is_derive_Reals. intros eps He. exists (mkposreal (Rpower eps (1 / p)) (exp_pos _)). cbn. intros h Hh Hs.
    rewrite Rplus_0_l. pose proof (pw_small p eps h Hp He Hs) as H.
    assert (E : pw (p + 1) h = pw p h * h).
    { unfold pw. destruct (Rle_dec h 0); [lra|]. rewrite Rpower_plus, Rpower_1 by lra. reflexivity. }
    rewrite E. unfold pw at 2 3. destruct (Rle_dec 0 0); [|lra].
    replace ((pw p h * h / (p + 1) - 0 / (p + 1)) / h - 0) with (pw p h / (p + 1)) by (field; lra).
    rewrite Rabs_pos_eq.
    + apply (Rmult_lt_reg_r (p + 1)); [lra|]. unfold Rdiv. rewrite Rmult_assoc, Rinv_l by lra. nra.
    + apply Rmult_le_pos; [lra|]. left. apply Rinv_0_lt_compat. lra.
  - apply (is_derive_ext_loc (fun u => Rpower u (p + 1) / (p + 1))).
    + exists (mkposreal x Hx). intros y Hy. unfold ball in Hy. cbn in Hy. unfold AbsRing_ball, abs, minus, plus, opp in Hy. cbn in Hy.
      unfold pw. destruct (Rle_dec y 0); auto. exfalso. revert Hy. unfold Rabs. destruct (Rcase_abs (y + - x)); lra.
    + unfold pw. destruct (Rle_dec x 0); [lra|]. unfold Rpower. auto_derive; [exact Hx|].
      replace ((p + 1) * ln x) with (p * ln x + ln x) by ring. rewrite exp_plus, (exp_ln _ Hx). field. split; lra.
Qed.
Lemma int_power p : 0 <= p -> is_RInt (fun u => Rpower u p) 0 1 (1 / (p + 1)).
Proof.
  intros [Hp| <-].
  - apply (is_RInt_ext (pw p)).
    + intros x Hx. rewrite Rmin_left, Rmax_right in Hx by lra. unfold pw. destruct (Rle_dec x 0); [lra|reflexivity].
    + replace (1 / (p + 1)) with (minus (pw (p + 1) 1 / (p + 1)) (pw (p + 1) 0 / (p + 1))).
      * apply (is_RInt_derive (fun u => pw (p + 1) u / (p + 1)) (pw p)); intros x _; [now apply pw_derive|].
        apply continuity_pt_filterlim. now apply pw_continuous.
      * unfold minus, plus, opp, pw. cbn. destruct (Rle_dec 1 0), (Rle_dec 0 0); try lra. rewrite rpower_one. field. lra.
  - apply (is_RInt_ext (fun _ => 1)).
    + intros x Hx. rewrite Rmin_left, Rmax_right in Hx by lra. symmetry. unfold Rpower. rewrite Rmult_0_l. apply exp_0.
    + replace (1 / (0 + 1)) with 1 by field. apply is_RInt_const01.
Qed.

(** ** The sampler with one slot, on real numbers *)
Section Jump.
Variable w : nat -> R.

(** [c] is the item held, [r] its key, [X] what is left of the jump. *)
Fixpoint jump (m idx c : nat) (r X : R) (us : list R) : nat :=
  match m with
  | O => c
  | S m' =>
      if Rle_dec (X - w idx) 0 then
        match us with
        | u1 :: u2 :: us' =>
            let t := Rpower r (w idx) in
            let r' := Rpower (u1 * (1 - t) + t) (1 / w idx) in
            jump m' (S idx) idx r' (ln u2 / ln r') us'
        | _ => c
        end
      else jump m' (S idx) c r (X - w idx) us
  end.

Variable i : nat.
Definition ind (c : nat) : R := if (c =? i)%nat then 1 else 0.

(** the claimed probability that item [i] is held at the end *)
Definition later (m idx : nat) : R := if ((idx <=? i) && (i <? idx + m))%nat then w i / wsum w idx m else 0.
Definition val (m idx c : nat) (r : R) : R :=
  ind c * Rpower r (wsum w idx m) + later m idx * (1 - Rpower r (wsum w idx m)).

Lemma wsum_nonneg m : forall idx, (forall j, (idx <= j < idx + m)%nat -> 0 <= w j) -> 0 <= wsum w idx m.
Proof.
  induction m as [|m IH]; intros idx H; cbn; [lra|]. pose proof (H idx ltac:(lia)). specialize (IH (S idx) ltac:(intros; apply H; lia)). lra.
Qed.
Lemma wsum_ge m : forall idx, (forall j, (idx <= j < idx + m)%nat -> 0 <= w j) -> (idx <= i < idx + m)%nat -> w i <= wsum w idx m.
Proof.
  induction m as [|m IH]; intros idx H Hi; [lia|]. cbn. destruct (Nat.eq_dec i idx) as [->|Hn].
  - pose proof (wsum_nonneg m (S idx) ltac:(intros; apply H; lia)). lra.
  - specialize (IH (S idx) ltac:(intros; apply H; lia) ltac:(lia)). pose proof (H idx ltac:(lia)). lra.
Qed.

(** the value after an insertion, averaged over the new key *)
Definition avg (m idx : nat) (t : R) : R :=
  let p := wsum w (S idx) m / w idx in
  let J := (1 - Rpower t (p + 1)) / ((1 - t) * (p + 1)) in
  ind idx * J + later m (S idx) * (1 - J).

Lemma later_range m idx : (idx <= i < idx + m)%nat -> later m idx = w i / wsum w idx m.
Proof. intros H. unfold later. destruct (Nat.leb_spec idx i), (Nat.ltb_spec i (idx + m)); cbn; auto; lia. Qed.
Lemma later_out m idx : ~ (idx <= i < idx + m)%nat -> later m idx = 0.
Proof. intros H. unfold later. destruct (Nat.leb_spec idx i), (Nat.ltb_spec i (idx + m)); cbn; auto; lia. Qed.

Lemma avg_step m idx t : 0 < t < 1 -> 0 < w idx -> (forall j, (idx <= j < idx + S m)%nat -> 0 <= w j) ->
  (1 - t) * avg m idx t = later (S m) idx * (1 - Rpower t (wsum w idx (S m) / w idx)) - t * later m (S idx) * (1 - Rpower t (wsum w (S idx) m / w idx)).
Proof.
  intros Ht Hw HN. unfold avg. set (W' := wsum w (S idx) m). cbn [wsum]. fold W'.
  assert (HW' : 0 <= W') by (apply wsum_nonneg; intros; apply HN; lia).
  assert (Hp : 0 <= W' / w idx) by (apply Rmult_le_pos; [lra|left; apply Rinv_0_lt_compat; lra]).
  replace ((w idx + W') / w idx) with (W' / w idx + 1) by (field; lra).
  set (p := W' / w idx) in *. assert (EP : Rpower t (p + 1) = Rpower t p * t) by (rewrite Rpower_plus, Rpower_1 by lra; reflexivity).
  rewrite EP. set (P := Rpower t p) in *.
  assert (Ep1 : p + 1 = (w idx + W') / w idx) by (unfold p; field; lra).
  assert (EJ : (1 - t) * ((1 - P * t) / ((1 - t) * (p + 1))) = (1 - P * t) * (w idx / (w idx + W'))).
  { rewrite Ep1. field. repeat split; lra. }
  destruct (Nat.eq_dec idx i) as [E|Hn].
  - unfold ind. rewrite (proj2 (Nat.eqb_eq idx i) E), (later_out m (S idx)) by lia. rewrite later_range by lia. cbn [wsum]. fold W'. rewrite <- E.
    replace ((1 - t) * (1 * ((1 - P * t) / ((1 - t) * (p + 1))) + 0 * (1 - (1 - P * t) / ((1 - t) * (p + 1)))))
      with ((1 - t) * ((1 - P * t) / ((1 - t) * (p + 1)))) by ring. rewrite EJ. ring.
  - unfold ind. destruct (Nat.eqb_spec idx i) as [E|_]; [lia|].
    destruct (le_lt_dec idx i) as [H1|H1]; [destruct (lt_dec i (idx + S m)) as [H2|H2]|].
    2,3: rewrite !later_out by lia; ring.
    rewrite !later_range by lia. cbn [wsum]. fold W'.
    destruct (Req_dec W' 0) as [E0|N0].
    + assert (w i = 0). { pose proof (wsum_ge m (S idx) ltac:(intros; apply HN; lia) ltac:(lia)). fold W' in H. pose proof (HN i ltac:(lia)). lra. }
      rewrite H. unfold Rdiv. ring.
    + transitivity (w i / W' * ((1 - t) - (1 - t) * ((1 - P * t) / ((1 - t) * (p + 1))))); [ring|]. rewrite EJ. field. split; lra.
Qed.

Lemma val_step m idx c r : 0 < r < 1 -> 0 < w idx -> (forall j, (idx <= j < idx + S m)%nat -> 0 <= w j) ->
  Rpower r (w idx) * val m (S idx) c r + (1 - Rpower r (w idx)) * avg m idx (Rpower r (w idx)) = val (S m) idx c r.
Proof.
  intros Hr Hw HN. pose proof (Rpower_lt1 r (w idx) Hr Hw) as Ht.
  rewrite (avg_step m idx _ Ht Hw HN). unfold val. rewrite !Rpower_mult.
  replace (w idx * (wsum w idx (S m) / w idx)) with (wsum w idx (S m)) by (field; lra).
  replace (w idx * (wsum w (S idx) m / w idx)) with (wsum w (S idx) m) by (field; lra).
  cbn [wsum]. rewrite Rpower_plus. ring.
Qed.

Lemma val_zero m idx c r : 0 < r < 1 -> w idx = 0 -> val m (S idx) c r = val (S m) idx c r.
Proof.
  intros Hr Hw. unfold val. cbn [wsum]. rewrite Hw, Rplus_0_l. f_equal. f_equal.
  destruct (Nat.eq_dec idx i) as [E|Hn].
  - rewrite (later_out m (S idx)) by lia. rewrite later_range by lia. rewrite <- E, Hw. unfold Rdiv. ring.
  - unfold later. cbn [wsum]. rewrite Hw, Rplus_0_l.
    destruct (Nat.leb_spec (S idx) i), (Nat.leb_spec idx i), (Nat.ltb_spec i (S idx + m)), (Nat.ltb_spec i (idx + S m)); cbn; auto; lia.
Qed.

(** The average over the new key. *)
Lemma insert_average m idx t : 0 < t < 1 -> 0 < w idx -> (forall j, (idx <= j < idx + S m)%nat -> 0 <= w j) ->
  is_RInt (fun u => val m (S idx) idx (Rpower (u * (1 - t) + t) (1 / w idx))) 0 1 (avg m idx t).
Proof.
  intros Ht Hw HN. unfold avg, val. set (W' := wsum w (S idx) m). set (p := W' / w idx).
  assert (HW' : 0 <= W') by (apply wsum_nonneg; intros; apply HN; lia).
  assert (Hp : 0 <= p) by (apply Rmult_le_pos; [lra|left; apply Rinv_0_lt_compat; lra]).
  set (J := (1 - Rpower t (p + 1)) / ((1 - t) * (p + 1))). set (B := ind idx). set (C := later m (S idx)).
  apply (is_RInt_ext (fun u => plus (scal (B - C) (Rpower (u * (1 - t) + t) p)) C)).
  - intros x _. rewrite Rpower_mult. replace (1 / w idx * W') with p by (unfold p; field; lra).
    unfold plus, scal. cbn. unfold mult. cbn. ring.
  - replace (B * J + C * (1 - J)) with (plus (scal (B - C) J) C) by (unfold plus, scal; cbn; unfold mult; cbn; ring).
    apply (is_RInt_plus (V:=R_NormedModule)); [|apply is_RInt_const01]. apply (is_RInt_scal (V:=R_NormedModule)). now apply int_affine_power.
Qed.

Lemma jump_threshold u r x : 0 < u -> 0 < r < 1 -> (ln u / ln r - x <= 0 <-> Rpower r x <= u).
Proof.
  intros Hu Hr. assert (Hl : ln r < 0) by (rewrite <- ln_1; apply ln_increasing; lra). unfold Rpower.
  assert (E : ln u / ln r - x = (x * ln r - ln u) / (- ln r)) by (field; lra). rewrite E.
  split; intros H.
  - rewrite <- (exp_ln u Hu). assert (x * ln r - ln u <= 0).
    { apply (Rmult_le_reg_r (/ (- ln r))); [apply Rinv_0_lt_compat; lra|]. rewrite Rmult_0_l. exact H. }
    destruct (Rle_lt_or_eq_dec (x * ln r) (ln u) ltac:(lra)) as [L| ->]; [left; now apply exp_increasing|lra].
  - assert (x * ln r <= ln u).
    { rewrite <- (exp_ln u Hu) in H. destruct (Rle_lt_dec (x * ln r) (ln u)); auto. apply exp_increasing in r0. lra. }
    apply (Rmult_le_reg_r (- ln r)); [lra|]. unfold Rdiv. rewrite Rmult_assoc, Rinv_l by lra. lra.
Qed.

Theorem jump_law m : forall idx c r e, 0 < r < 1 -> (forall j, (idx <= j < idx + m)%nat -> 0 <= w j) ->
  sexpects (S (2 * m + e)) (fun us => match us with [] => 0 | u :: us' => ind (jump m idx c r (ln u / ln r) us') end) (val m idx c r).
Proof.
  induction m as [|m IH]; intros idx c r e Hr HN.
  - unfold val. cbn [wsum jump]. rewrite later_out by lia.
    replace (ind c * Rpower r 0 + 0 * (1 - Rpower r 0)) with (ind c) by (rewrite Rpower_O by lra; ring).
    apply (sexpects_ext _ _ (fun _ => ind c)); [|apply sexpects_const]. intros [|u us] HL HU; [discriminate|reflexivity].
  - destruct (IH (S idx) c r (S (S e)) Hr ltac:(intros; apply HN; lia)) as (hI & HI1 & HI2).
    destruct (HN idx ltac:(lia)) as [Hw|Hw].
    + set (t := Rpower r (w idx)). assert (Ht : 0 < t < 1) by (apply Rpower_lt1; auto).
      exists (fun u => if Rlt_dec u t then hI (u / t) else avg m idx t). split.
      * intros u Hu. destruct (Rlt_dec u t) as [Hlt|Hge].
        -- assert (Hv : 0 < u / t < 1).
           { split; [apply Rdiv_lt_0_compat; lra|]. apply (Rmult_lt_reg_r t); [lra|]. unfold Rdiv. rewrite Rmult_assoc, Rinv_l by lra. lra. }
           specialize (HI1 (u / t) Hv). replace (2 * S m + e)%nat with (2 * m + S (S e))%nat by lia.
           apply (sexpects_ext _ _ _ _) with (2 := HI1). intros us _ _. cbn [jump].
           destruct (Rle_dec (ln u / ln r - w idx) 0) as [Hc|Hc].
           { apply jump_threshold in Hc; [|lra|auto]. unfold t in Hlt. lra. }
           f_equal. f_equal. assert (Hl : ln r < 0) by (rewrite <- ln_1; apply ln_increasing; lra).
           unfold Rdiv at 3. rewrite ln_mult, ln_Rinv by (try apply Rinv_0_lt_compat; lra).
           unfold t, Rpower. rewrite ln_exp. field. lra.
        -- replace (2 * S m + e)%nat with (S (S (2 * m + e))) by lia.
           exists (fun u1 => val m (S idx) idx (Rpower (u1 * (1 - t) + t) (1 / w idx))). split; [|now apply insert_average].
           intros u1 Hu1. set (r' := Rpower (u1 * (1 - t) + t) (1 / w idx)).
           assert (Hr' : 0 < r' < 1). { apply Rpower_lt1; [split; nra|]. apply Rdiv_lt_0_compat; lra. }
           apply (sexpects_ext _ _ _ _) with (2 := IH (S idx) idx r' e Hr' ltac:(intros; apply HN; lia)).
           intros [|u2 us] HL HU; [discriminate|]. cbn [jump].
           destruct (Rle_dec (ln u / ln r - w idx) 0) as [Hc|Hc]; [reflexivity|].
           exfalso. apply Hc. apply jump_threshold; [lra|auto|]. unfold t in Hge. lra.
      * rewrite <- (val_step m idx c r Hr Hw HN). fold t.
        apply (is_RInt_Chasles (V:=R_NormedModule)) with t.
        -- apply (is_RInt_ext (fun y => scal t (scal (/ t) (hI (/ t * y + 0))))).
           { intros x Hx. rewrite Rmin_left, Rmax_right in Hx by lra. destruct (Rlt_dec x t) as [_|]; [|lra].
             unfold scal. cbn. unfold mult. cbn. rewrite <- Rmult_assoc, Rinv_r, Rmult_1_l by lra. f_equal. unfold Rdiv. ring. }
           apply (is_RInt_scal (V:=R_NormedModule)). apply (is_RInt_comp_lin (V:=R_NormedModule)).
           replace (/ t * 0 + 0) with 0 by ring. replace (/ t * t + 0) with 1 by (field; lra). exact HI2.
        -- apply (is_RInt_ext (fun _ => avg m idx t)).
           { intros x Hx. rewrite Rmin_left, Rmax_right in Hx by lra. destruct (Rlt_dec x t); [lra|reflexivity]. }
           apply (is_RInt_const t 1 (avg m idx t)).
    + exists hI. split.
      * intros u Hu. specialize (HI1 u Hu). replace (2 * S m + e)%nat with (2 * m + S (S e))%nat by lia.
        apply (sexpects_ext _ _ _ _) with (2 := HI1). intros us _ _. cbn [jump]. rewrite <- Hw, Rminus_0_r.
        destruct (Rle_dec (ln u / ln r) 0) as [Hc|Hc]; [|reflexivity].
        assert (Hl : ln r < 0) by (rewrite <- ln_1; apply ln_increasing; lra).
        assert (Hlu : ln u < 0) by (rewrite <- ln_1; apply ln_increasing; lra).
        exfalso. assert (0 < ln u / ln r); [|lra]. replace (ln u / ln r) with ((- ln u) / (- ln r)) by (field; lra). apply Rdiv_lt_0_compat; lra.
      * rewrite <- (val_zero m idx c r Hr (eq_sym Hw)). exact HI2.
Qed.
End Jump.
