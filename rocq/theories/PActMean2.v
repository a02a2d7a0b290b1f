(** The mean-field weights entry by entry, and the contact probabilities in exact arithmetic. *)
From Verif Require Import Base BaseFacts Arith64 RFacts MRandom MDist MNetwork SNetwork PNetwork PNetwork2
  MAgents MDeGroot MActivity SActivity PActStep PActNet PActMean.
From Coq Require Import Reals Lra Psatz.

Section Entry.
Context {a : Arith}.
Notation D := (F a).

(** the share of the weight of [i] for [j] that comes from reciprocation *)
Definition recip_part (r : D) (P : nat -> nat -> D) (i j : nat) : D :=
  fmul a (fmul a (fsub a (f1 a) (P j i)) r) (P i j).

Definition touch (r : D) (P : nat -> nat -> D) (i j i' j' : nat) (v : D) : D :=
  let v := if (j' =? i) && (i' =? j) then fadd a v (P i' j') else v in
  if (i' =? i) && (j' =? j) then fadd a v (recip_part r P i' j') else v.

Lemma contribute_entry r P i' j' W i j : contribute r P i' j' W i j = touch r P i j i' j' (W i j).
Proof.
  unfold contribute, upd2, touch, recip_part.
  destruct (Nat.eqb_spec i' i) as [->|H1], (Nat.eqb_spec j' j) as [->|H2]; cbn [andb]; auto;
  destruct (Nat.eqb_spec j i) as [->|H3]; cbn [andb]; rewrite ?Nat.eqb_refl; cbn [andb]; auto;
  repeat match goal with |- context [?x =? ?y] => destruct (Nat.eqb_spec x y); subst; cbn [andb]; auto; try contradiction end.
Qed.

Lemma row_entry r P i' i j js : forall W,
  fold_left (fun W j' => contribute r P i' j' W) js W i j = fold_left (fun v j' => touch r P i j i' j' v) js (W i j).
Proof. induction js as [|j' js IH]; intros W; cbn [fold_left]; auto. rewrite IH, contribute_entry. reflexivity. Qed.

Lemma touch_other r P i j i' j' v : ~ (j' = i /\ i' = j) -> ~ (i' = i /\ j' = j) -> touch r P i j i' j' v = v.
Proof.
  intros H1 H2. unfold touch.
  destruct (Nat.eqb_spec j' i), (Nat.eqb_spec i' j), (Nat.eqb_spec i' i), (Nat.eqb_spec j' j); cbn [andb]; auto; subst; tauto.
Qed.

Lemma touch_fold_once r P i j i' k js : forall v, NoDup js -> In k js ->
  (forall j' w, In j' js -> j' <> k -> touch r P i j i' j' w = w) ->
  fold_left (fun v j' => touch r P i j i' j' v) js v = touch r P i j i' k v.
Proof.
  induction js as [|x js IH]; intros v Hn Hk Ho; [destruct Hk|]. inversion Hn as [|? ? N1 N2]; subst. cbn [fold_left].
  destruct (Nat.eq_dec x k) as [->|Hne].
  - clear IH Hk. assert (G : forall js' w, incl js' js -> fold_left (fun v j' => touch r P i j i' j' v) js' w = w).
    { induction js' as [|y js' IH]; intros w Hi; cbn; auto. rewrite Ho, IH; auto; try (apply Hi || right; apply Hi); cbn; auto.
      - intros z Hz. apply Hi. now right.
      - intros ->. apply N1. apply Hi. now left. }
    apply G. apply incl_refl.
  - destruct Hk as [->|Hk]; [contradiction|]. rewrite Ho by (cbn; auto). apply IH; auto. intros j' w Hj'. apply Ho. now right.
Qed.
Lemma touch_fold_none r P i j i' js : forall v, (forall j' w, In j' js -> touch r P i j i' j' w = w) ->
  fold_left (fun v j' => touch r P i j i' j' v) js v = v.
Proof. induction js as [|x js IH]; intros v H; cbn; auto. rewrite H by (cbn; auto). apply IH. intros; apply H. now right. Qed.

(** what agent [i']'s turn does to the entry (i,j) *)
Lemma turn_entry n r P i' i j v : i < n -> j < n -> i' < n ->
  fold_left (fun v j' => touch r P i j i' j' v) (seq 0 n) v =
  (let v := if i' =? j then fadd a v (P j i) else v in if i' =? i then fadd a v (recip_part r P i j) else v).
Proof.
  intros Hi Hj Hi'. destruct (Nat.eqb_spec i' j) as [E1|H1], (Nat.eqb_spec i' i) as [E2|H2]; cbn zeta.
  - assert (j = i) by congruence. subst j. subst i'. rewrite (touch_fold_once r P i i i i); [|apply seq_NoDup|apply in_seq; lia|].
    + unfold touch. rewrite Nat.eqb_refl. reflexivity.
    + intros j' w _ Hne. apply touch_other; tauto.
  - subst i'. rewrite (touch_fold_once r P i j j i); [|apply seq_NoDup|apply in_seq; lia|].
    + unfold touch. rewrite !Nat.eqb_refl. cbn. destruct (Nat.eqb_spec j i); [congruence|reflexivity].
    + intros j' w _ Hne. apply touch_other; [tauto|]. intros [? ?]. congruence.
  - subst i'. rewrite (touch_fold_once r P i j i j); [|apply seq_NoDup|apply in_seq; lia|].
    + unfold touch. rewrite !Nat.eqb_refl. cbn. destruct (Nat.eqb_spec i j); [congruence|]. rewrite andb_false_r. reflexivity.
    + intros j' w _ Hne. apply touch_other; [|tauto]. intros [? ?]. congruence.
  - apply touch_fold_none. intros j' w _. apply touch_other; tauto.
Qed.

Lemma all_entry n r P i j : i < n -> j < n ->
  all_contributions n r P i j =
  if j <=? i then fadd a (fadd a (f0 a) (P j i)) (recip_part r P i j)
  else fadd a (fadd a (f0 a) (recip_part r P i j)) (P j i).
Proof.
  intros Hi Hj. unfold all_contributions.
  assert (G : forall is W, (forall x, In x is -> x < n) ->
    fold_left (fun W i' => fold_left (fun W j' => contribute r P i' j' W) (seq 0 n) W) is W i j =
    fold_left (fun v i' => let v := if i' =? j then fadd a v (P j i) else v in if i' =? i then fadd a v (recip_part r P i j) else v) is (W i j)).
  { induction is as [|x is IH]; intros W H; cbn [fold_left]; auto. rewrite IH by (intros; apply H; now right).
    rewrite row_entry, turn_entry by (auto; apply H; now left). reflexivity. }
  rewrite G by (intros x Hx; apply in_seq in Hx; lia). clear G.
  assert (N : forall is v, (forall x, In x is -> x <> i /\ x <> j) ->
    fold_left (fun v i' => let v := if i' =? j then fadd a v (P j i) else v in if i' =? i then fadd a v (recip_part r P i j) else v) is v = v).
  { induction is as [|x is IH]; intros v H; cbn [fold_left]; auto. destruct (H x (or_introl eq_refl)) as [H1 H2].
    rewrite (proj2 (Nat.eqb_neq _ _) H1), (proj2 (Nat.eqb_neq _ _) H2). cbn. apply IH. intros; apply H; now right. }
  assert (S3 : forall lo hi, lo < hi -> hi < n -> seq 0 n = seq 0 lo ++ [lo] ++ seq (S lo) (hi - S lo) ++ [hi] ++ seq (S hi) (n - S hi)).
  { intros lo hi H1 H2. replace n with (lo + (1 + ((hi - S lo) + (1 + (n - S hi))))) at 1 by lia.
    rewrite seq_app. f_equal. cbn [Nat.add seq app]. f_equal.
    rewrite seq_app. f_equal. replace (S lo + (hi - S lo)) with hi by lia. reflexivity. }
  destruct (Nat.leb_spec j i) as [Hle|Hlt].
  - destruct (Nat.eq_dec j i) as [->|Hne].
    + replace (seq 0 n) with (seq 0 i ++ [i] ++ seq (S i) (n - S i)).
      2:{ replace n with (i + (1 + (n - S i))) at 2 by lia. rewrite seq_app. reflexivity. }
      rewrite !fold_left_app. cbn [fold_left]. rewrite (N (seq 0 i)) by (intros x Hx; apply in_seq in Hx; lia).
      rewrite Nat.eqb_refl. cbn zeta. apply N. intros x Hx. apply in_seq in Hx. lia.
    + rewrite (S3 j i ltac:(lia) Hi). rewrite !fold_left_app. cbn [fold_left].
      rewrite (N (seq 0 j)) by (intros x Hx; apply in_seq in Hx; lia). rewrite Nat.eqb_refl, (proj2 (Nat.eqb_neq j i)) by lia.
      cbn zeta. rewrite (N (seq (S j) _)) by (intros x Hx; apply in_seq in Hx; lia).
      rewrite Nat.eqb_refl, (proj2 (Nat.eqb_neq i j)) by lia. apply N. intros x Hx; apply in_seq in Hx; lia.
  - rewrite (S3 i j ltac:(lia) Hj). rewrite !fold_left_app. cbn [fold_left].
    rewrite (N (seq 0 i)) by (intros x Hx; apply in_seq in Hx; lia). rewrite Nat.eqb_refl, (proj2 (Nat.eqb_neq i j)) by lia.
    cbn zeta. rewrite (N (seq (S i) _)) by (intros x Hx; apply in_seq in Hx; lia).
    rewrite Nat.eqb_refl, (proj2 (Nat.eqb_neq j i)) by lia. apply N. intros x Hx; apply in_seq in Hx; lia.
Qed.
End Entry.

Local Open Scope R_scope.

Lemma Int_part_INR (z : Z) : Int_part (IZR z) = z.
Proof.
  unfold Int_part. rewrite <- (tech_up (IZR z) (z + 1)).
  - lia.
  - rewrite plus_IZR. lra.
  - rewrite plus_IZR. lra.
Qed.

(** pow(-w, n) for a natural exponent n >= 1 *)
Lemma Rpow_neg_nat w n : (1 <= n)%nat -> 0 <= w -> Rpow (- w) (IZR (Z.of_nat n)) = (- w) ^ n.
Proof.
  intros Hn Hw. unfold Rpow. destruct (Rlt_dec 0 (- w)); [lra|].
  assert (IZR (Z.of_nat n) <> 0) by (apply not_0_IZR; lia).
  destruct (Req_EM_T (IZR (Z.of_nat n)) 0); [contradiction|].
  destruct (Req_EM_T (- w) 0) as [E|E].
  - rewrite E. destruct n; [lia|]. cbn. ring.
  - rewrite Int_part_INR. destruct n; [lia|]. cbn [Z.of_nat powerRZ]. now rewrite SuccNat2Pos.id_succ.
Qed.

Lemma pow_le_self w n : 0 <= w <= 1 -> (1 <= n)%nat -> w ^ n <= w.
Proof.
  intros Hw Hn. destruct n as [|n]; [lia|]. cbn. pose proof (pow_le w n (proj1 Hw)).
  assert (w ^ n <= 1). { clear Hn H. induction n as [|n IH]; cbn; [lra|]. pose proof (pow_le w n (proj1 Hw)). nra. }
  nra.
Qed.
Lemma pow_le_sq w n : 0 <= w <= 1 -> (2 <= n)%nat -> w ^ n <= w * w.
Proof.
  intros Hw Hn. destruct n as [|[|n]]; try lia. cbn. pose proof (pow_le w n (proj1 Hw)).
  assert (w ^ n <= 1). { clear Hn H. induction n as [|n IH]; cbn; [lra|]. pose proof (pow_le w n (proj1 Hw)). nra. }
  assert (0 <= w * w) by nra. nra.
Qed.

(** one round's term *)
Lemma round_bounds w k : 0 <= w <= 1 -> (1 <= k)%nat ->
  0 <= ((- w) ^ (k + 1) + w) / (w + 1) <= w.
Proof.
  intros Hw Hk. assert (Hp : - (w * w) <= (- w) ^ (k + 1) <= w * w).
  { pose proof (pow_le_sq w (k + 1) Hw ltac:(lia)) as H1. pose proof (pow_le w (k + 1) (proj1 Hw)) as H2.
    apply Rabs_def2 with (a := w * w + 1) || idtac.
    assert (Rabs ((- w) ^ (k + 1)) <= w * w).
    { rewrite <- RPow_abs, Rabs_Ropp, (Rabs_right w) by lra. exact H1. }
    unfold Rabs in H. destruct (Rcase_abs ((- w) ^ (k + 1))); lra. }
  split.
  - apply Rmult_le_pos; [nra|]. left. apply Rinv_0_lt_compat. lra.
  - apply Rmult_le_reg_r with (w + 1); [lra|]. unfold Rdiv. rewrite Rmult_assoc, Rinv_l by lra. nra.
Qed.

Section Prob.
Context (lm : Libm RA) {A : Type} (ops : agent_ops (F RA) A).
Hypothesis Hpow : lpow RA lm = Rpow.

Lemma fold_add_map (f : nat -> R) l : forall x, fold_left (fun p k => p + f k) l x = x + Rsum (map f l).
Proof. induction l as [|k l IH]; intros x; cbn [fold_left map]; [rewrite Rsum_nil; ring|]. rewrite IH, Rsum_cons. ring. Qed.

Lemma rounds_R w mm : 0 <= w -> rounds (a:=RA) lm w mm = Rsum (map (fun k => ((- w) ^ (k + 1) + w) / (w + 1)) (seq 1 mm)).
Proof.
  intros Hw. unfold rounds. rewrite Hpow. cbn [fadd fdiv fopp fofZ f0 f1 RA].
  eapply eq_trans; [apply (fold_add_map (fun k => (Rpow (- w) (IZR (Z.of_nat (k + 1))) + w) / (w + 1)))|].
  rewrite Rplus_0_l. f_equal. apply map_ext_in. intros k Hk. apply in_seq in Hk. rewrite Rpow_neg_nat by (auto; lia). reflexivity.
Qed.

Lemma Rsum_bounds (f : nat -> R) l lo hi : (forall k, In k l -> lo <= f k <= hi) ->
  INR (length l) * lo <= Rsum (map f l) <= INR (length l) * hi.
Proof.
  induction l as [|k l IH]; intros H; cbn [map length].
  - rewrite Rsum_nil. cbn. lra.
  - rewrite Rsum_cons, S_INR. specialize (H k (or_introl eq_refl)) as H1. assert (H2 := IH (fun j Hj => H j (or_intror Hj))). lra.
Qed.

Lemma rounds_bounds w mm : 0 <= w <= 1 -> 0 <= rounds (a:=RA) lm w mm <= INR mm * w.
Proof.
  intros Hw. rewrite rounds_R by lra.
  pose proof (Rsum_bounds (fun k => ((- w) ^ (k + 1) + w) / (w + 1)) (seq 1 mm) 0 w) as H.
  rewrite seq_length in H. rewrite Rmult_0_r in H. apply H. intros k Hk. apply in_seq in Hk. apply round_bounds; auto. lia.
Qed.

Lemma affinity_pos (st : ad_settings (F RA)) (l : list A) i j : (i < length l)%nat -> (j < length l)%nat -> i <> j ->
  0 < affinity (a:=RA) lm ops st l i j.
Proof.
  intros Hi Hj Hne. unfold affinity. rewrite (proj2 (Nat.eqb_neq j i)) by auto.
  destruct (nth_error l i) as [x|] eqn:Ex. 2:{ apply nth_error_None in Ex. lia. }
  destruct (nth_error l j) as [y|] eqn:Ey. 2:{ apply nth_error_None in Ey. lia. }
  rewrite Hpow. unfold fmax. cbn [flt fabs fsub fopp RA].
  assert (H0 : 0 < lit10 (a:=RA) 1 10).
  { unfold lit10. cbn -[IZR Z.pow_pos]. apply Rdiv_lt_0_compat; [lra|]. now apply IZR_lt. }
  assert (G : forall b h : R, 0 < b -> 0 < Rpow b h).
  { intros b h Hb. unfold Rpow. destruct (Rlt_dec 0 b); [|lra]. apply exp_pos. }
  apply G. destruct (Rltb_spec (lit10 (a:=RA) 1 10) (Rabs (get_opinion ops x - get_opinion ops y))); auto. lra.
Qed.
Lemma affinity_nonneg (st : ad_settings (F RA)) (l : list A) i j : (i < length l)%nat -> (j < length l)%nat ->
  0 <= affinity (a:=RA) lm ops st l i j.
Proof.
  intros Hi Hj. destruct (Nat.eq_dec i j) as [->|Hne].
  - unfold affinity. rewrite Nat.eqb_refl. cbn. lra.
  - left. now apply affinity_pos.
Qed.
Lemma total_affinity_R (st : ad_settings (F RA)) (l : list A) i :
  total_affinity (a:=RA) lm ops st l i = Rsum (map (affinity (a:=RA) lm ops st l i) (seq 0 (length l))).
Proof.
  unfold total_affinity. cbn [fadd f0 RA]. eapply eq_trans; [apply (fold_add_map (affinity (a:=RA) lm ops st l i))|]. apply Rplus_0_l.
Qed.
Lemma Rsum_pos_in (f : nat -> R) l k : (forall j, In j l -> 0 <= f j) -> In k l -> f k <= Rsum (map f l).
Proof.
  intros H Hk. induction l as [|x l IH]; [destruct Hk|]. cbn [map]. rewrite Rsum_cons.
  assert (H0 : 0 <= Rsum (map f l)). { apply Rsum_nonneg. apply Forall_map, Forall_forall. intros j Hj. apply H. now right. }
  destruct Hk as [->|Hk]; [lra|]. specialize (IH (fun j Hj => H j (or_intror Hj)) Hk). specialize (H x (or_introl eq_refl)). lra.
Qed.
Lemma total_affinity_pos (st : ad_settings (F RA)) (l : list A) i : (i < length l)%nat -> (2 <= length l)%nat ->
  0 < total_affinity (a:=RA) lm ops st l i.
Proof.
  intros Hi Hl. rewrite total_affinity_R.
  assert (exists j, (j < length l)%nat /\ i <> j) as (j & Hj & Hne).
  { destruct (Nat.eq_dec i 0); [exists 1%nat|exists 0%nat]; lia. }
  eapply Rlt_le_trans; [apply (affinity_pos st l i j Hi Hj Hne)|]. apply (Rsum_pos_in (affinity (a:=RA) lm ops st l i)).
  - intros k Hk. apply in_seq in Hk. apply affinity_nonneg; lia.
  - apply in_seq. lia.
Qed.
Lemma share_bounds (st : ad_settings (F RA)) (l : list A) i j : (i < length l)%nat -> (j < length l)%nat -> (2 <= length l)%nat ->
  0 <= share (a:=RA) lm ops st l i j <= 1.
Proof.
  intros Hi Hj Hl. unfold share. cbn [fdiv RA]. pose proof (total_affinity_pos st l i Hi Hl) as Ht.
  pose proof (affinity_nonneg st l i j Hi Hj) as Ha.
  assert (Hle : affinity (a:=RA) lm ops st l i j <= total_affinity (a:=RA) lm ops st l i).
  { rewrite total_affinity_R. apply (Rsum_pos_in (affinity (a:=RA) lm ops st l i)).
    - intros k Hk. apply in_seq in Hk. apply affinity_nonneg; lia.
    - apply in_seq. lia. }
  assert (G : forall x t : R, 0 < t -> 0 <= x <= t -> 0 <= x / t <= 1).
  { intros x t Hp [H1 H2]. split; [apply Rmult_le_pos; [auto|left; now apply Rinv_0_lt_compat]|].
    apply Rmult_le_reg_r with t; auto. unfold Rdiv. rewrite Rmult_assoc, Rinv_l by lra. lra. }
  apply G; auto.
Qed.
Lemma shares_sum (st : ad_settings (F RA)) (l : list A) i : (i < length l)%nat -> (2 <= length l)%nat ->
  Rsum (map (share (a:=RA) lm ops st l i) (seq 0 (length l))) = 1.
Proof.
  intros Hi Hl. pose proof (total_affinity_pos st l i Hi Hl) as Ht.
  unfold share. cbn [fdiv RA].
  rewrite <- (map_map (affinity (a:=RA) lm ops st l i) (fun u => u / total_affinity (a:=RA) lm ops st l i)).
  eapply eq_trans; [apply (Rsum_scale (map (affinity (a:=RA) lm ops st l i) (seq 0 (length l))))|].
  rewrite <- total_affinity_R. assert (G : forall t : R, 0 < t -> t / t = 1) by (intros; field; lra). apply G. exact Ht.
Qed.
End Prob.
