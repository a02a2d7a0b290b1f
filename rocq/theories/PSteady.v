(** Repeated averaging in which every agent keeps a share of its own opinion (reals): the changes become
    small after a number of steps that does not depend on the number of agents, and every opinion
    converges. No connectivity is assumed. *)
From Verif Require Import Base BaseFacts RFacts PConsensus.
From Coq Require Import Reals Lra ConstructiveEpsilon.
Local Open Scope R_scope.

Lemma abs_between x M : Rabs x <= M -> - M <= x <= M.
Proof. unfold Rabs. destruct (Rcase_abs x); lra. Qed.

Section Steady.
Variable n0 : nat.                              (* the agents are 0, ..., n0 *)
Variable rows : nat -> list (nat * R).
Hypothesis Hin : forall i p, (i <= n0)%nat -> In p (rows i) -> (fst p <= n0)%nat.
Hypothesis Hnn : forall i, (i <= n0)%nat -> Forall (fun p => 0 <= snd p) (rows i).
Hypothesis Hsum : forall i, (i <= n0)%nat -> Rsum (map snd (rows i)) = 1.
Definition evolves (X : nat -> nat -> R) : Prop :=
  forall k i, (i <= n0)%nat -> X (S k) i = Rsum (map (fun p => snd p * X k (fst p)) (rows i)).

Lemma evolves_opp X : evolves X -> evolves (fun k i => - X k i).
Proof using.
  intros H k i Hi. rewrite H by auto. generalize (rows i). induction l as [|p l IH]; cbn [map]; rewrite ?Rsum_nil, ?Rsum_cons; [lra|].
  rewrite <- IH. lra.
Qed.
Lemma evolves_change X : evolves X -> evolves (fun k i => X (S k) i - X k i).
Proof using.
  intros H k i Hi. cbv beta. rewrite (H (S k) i Hi), (H k i Hi) at 1. rewrite <- Rsum_map_sub. f_equal. apply map_ext. intros p. lra.
Qed.
Lemma evolves_minus X (y : nat -> R) : evolves X -> (forall i, (i <= n0)%nat -> y i = Rsum (map (fun p => snd p * y (fst p)) (rows i))) ->
  evolves (fun k i => X k i - y i).
Proof using.
  intros H Hy k i Hi. rewrite (H k i Hi), (Hy i Hi) at 1. rewrite <- Rsum_map_sub. f_equal. apply map_ext. intros p. lra.
Qed.

Lemma abs_step X M k : evolves X -> (forall i, (i <= n0)%nat -> Rabs (X k i) <= M) -> forall i, (i <= n0)%nat -> Rabs (X (S k) i) <= M.
Proof using Hin Hnn Hsum.
  intros H HM i Hi. apply Rabs_le. split.
  - apply (lower_step n0 rows X H Hin Hnn Hsum k); auto. intros j Hj. specialize (HM j Hj). apply abs_between in HM. lra.
  - apply (upper_step n0 rows X H Hin Hnn Hsum k); auto. intros j Hj. specialize (HM j Hj). apply abs_between in HM. lra.
Qed.
Lemma abs_steps X M t k : evolves X -> (forall i, (i <= n0)%nat -> Rabs (X k i) <= M) -> forall i, (i <= n0)%nat -> Rabs (X (k + t)%nat i) <= M.
Proof using Hin Hnn Hsum.
  intros H HM. induction t as [|t IH]; [now rewrite Nat.add_0_r|]. rewrite Nat.add_succ_r. now apply abs_step.
Qed.

Section Share.
Variable delta : R.
Hypothesis Hdelta : 0 < delta <= 1.
Hypothesis Hself : forall i, (i <= n0)%nat -> exists w, In (i, w) (rows i) /\ delta <= w.

(** An agent whose change is almost the largest possible one has had almost that change all along. *)
Lemma backwards X M t i eta : evolves X -> (i <= n0)%nat -> (forall k j, (j <= n0)%nat -> (t <= k)%nat -> X (S k) j - X k j <= M) ->
  forall s, M - eta <= X (S (t + s)) i - X (t + s)%nat i ->
  forall r, (r <= s)%nat -> M - eta / delta ^ r <= X (S (t + s - r)) i - X (t + s - r)%nat i.
Proof using Hin Hnn Hsum Hdelta Hself.
  intros H Hi HM s H0. induction r as [|r IH]; intros Hr.
  - rewrite Nat.sub_0_r. cbn [pow]. lra.
  - specialize (IH ltac:(lia)). pose proof (evolves_change X H) as HD. set (k := (t + s - S r)%nat) in *.
    replace (t + s - r)%nat with (S k) in IH by (unfold k; lia).
    pose proof (HD k i Hi) as Ek. cbv beta in Ek.
    destruct (Hself i Hi) as (w & Hw & Hwd).
    destruct (mean_upper (rows i) (fun j => X (S k) j - X k j) M (Hnn i Hi) (Hsum i Hi)) as [_ U].
    { intros p Hp. apply HM; [eapply Hin; eauto|unfold k; lia]. }
    specialize (U i w (M - (X (S k) i - X k i)) Hw ltac:(lra)). rewrite <- Ek in U.
    assert (G : 0 <= M - (X (S k) i - X k i)). { specialize (HM k i Hi ltac:(unfold k; lia)). lra. }
    assert (U2 : delta * (M - (X (S k) i - X k i)) <= eta / delta ^ r) by nra.
    assert (P : 0 < delta ^ r) by (apply pow_lt; lra).
    cbn [pow]. replace (eta / (delta * delta ^ r)) with ((eta / delta ^ r) / delta) by (field; split; lra).
    assert (M - (X (S k) i - X k i) <= (eta / delta ^ r) / delta).
    { apply Rmult_le_reg_l with delta; [lra|]. replace (delta * (eta / delta ^ r / delta)) with (eta / delta ^ r) by (field; split; lra). exact U2. }
    lra.
Qed.

Lemma window X M t i N e : evolves X -> (i <= n0)%nat -> (forall k j, (j <= n0)%nat -> (t <= k)%nat -> X (S k) j - X k j <= M) ->
  0 <= e -> M - delta ^ N * e <= X (S (t + N)) i - X (t + N)%nat i -> INR (S N) * (M - e) <= X (S (t + N)) i - X t i.
Proof using Hin Hnn Hsum Hdelta Hself.
  intros H Hi HM He H0. pose proof (backwards X M t i (delta ^ N * e) H Hi HM N H0) as B.
  assert (P : forall r, 0 < delta ^ r) by (intros; apply pow_lt; lra).
  assert (Q : forall a b, delta ^ (a + b) <= delta ^ a).
  { intros a b. induction b as [|b IH]; [rewrite Nat.add_0_r; lra|]. rewrite Nat.add_succ_r. cbn [pow]. pose proof (P (a + b)%nat). nra. }
  assert (B2 : forall r, (r <= N)%nat -> M - e <= X (S (t + r)) i - X (t + r)%nat i).
  { intros r Hr. specialize (B (N - r)%nat ltac:(lia)). replace (t + N - (N - r))%nat with (t + r)%nat in B by lia.
    assert (delta ^ N * e / delta ^ (N - r) <= e).
    { apply Rmult_le_reg_r with (delta ^ (N - r)); [apply P|]. unfold Rdiv. rewrite Rmult_assoc, Rinv_l, Rmult_1_r by (apply Rgt_not_eq, P).
      rewrite (Rmult_comm e). apply Rmult_le_compat_r; [lra|]. replace N with ((N - r) + r)%nat at 1 by lia. apply Q. }
    lra. }
  assert (G : forall r, (r <= N)%nat -> INR (S r) * (M - e) <= X (S (t + r)) i - X t i).
  { induction r as [|r IH]; intros Hr.
    - specialize (B2 0%nat Hr). rewrite Nat.add_0_r in *. cbn [INR]. lra.
    - specialize (IH ltac:(lia)). specialize (B2 (S r) Hr). rewrite (S_INR (S r)). rewrite Nat.add_succ_r in *. lra. }
  apply G. lia.
Qed.

(** The number of steps after which all changes are below [tol], for opinions in an interval of length [w]. *)
Definition window_length (w tol : R) : nat := Z.to_nat (up (2 * w / tol)).
Definition steady_after (w tol : R) : nat :=
  (window_length w tol * S (Z.to_nat (up (w / (delta ^ window_length w tol * (tol / 2))))))%nat.

Lemma up_ge x : x <= INR (Z.to_nat (up x)).
Proof using.
  destruct (archimed x) as [A _]. destruct (Z_le_gt_dec 0 (up x)) as [H|H].
  - rewrite INR_IZR_INZ, Z2Nat.id by auto. lra.
  - assert (IZR (up x) <= 0) by (apply IZR_le; lia). pose proof (pos_INR (Z.to_nat (up x))). lra.
Qed.

Lemma steady X lo hi w tol : evolves X -> (forall i, (i <= n0)%nat -> lo <= X 0%nat i <= hi) -> hi - lo <= w -> 0 < tol ->
  forall k, (steady_after w tol <= k)%nat -> forall i, (i <= n0)%nat -> Rabs (X (S k) i - X k i) < tol.
Proof using Hin Hnn Hsum Hdelta Hself.
  intros H H0 Hw Ht. set (N := window_length w tol). set (eta := delta ^ N * (tol / 2)).
  set (Q := S (Z.to_nat (up (w / eta)))).
  assert (HX : forall k i, (i <= n0)%nat -> lo <= X k i <= hi).
  { intros k i Hi. split.
    - apply (lower_steps n0 rows X H Hin Hnn Hsum k 0 lo); auto. intros; now apply H0.
    - apply (upper_steps n0 rows X H Hin Hnn Hsum k 0 hi); auto. intros; now apply H0. }
  assert (W0 : 0 <= w). { specialize (H0 0%nat ltac:(lia)). lra. }
  assert (P : 0 < eta). { unfold eta. apply Rmult_lt_0_compat; [apply pow_lt; lra|lra]. }
  pose proof (evolves_change X H) as HD.
  set (b := fun k => maxf (fun i => Rabs (X (S k) i - X k i)) n0).
  assert (bge : forall k i, (i <= n0)%nat -> Rabs (X (S k) i - X k i) <= b k).
  { intros k i Hi. exact (maxf_ge (fun i => Rabs (X (S k) i - X k i)) n0 i Hi). }
  assert (bat : forall k, exists i, (i <= n0)%nat /\ Rabs (X (S k) i - X k i) = b k).
  { intros k. destruct (maxf_at (fun i => Rabs (X (S k) i - X k i)) n0) as (j & Hj & E). eauto. }
  assert (bdec : forall t k, b (k + t)%nat <= b k).
  { intros t k. destruct (bat (k + t)%nat) as (j & Hj & <-). apply (abs_steps _ (b k) t k HD); auto. }
  assert (b0 : b 0%nat <= w).
  { destruct (bat 0%nat) as (j & Hj & <-). pose proof (HX 0%nat j Hj). pose proof (HX 1%nat j Hj). apply Rabs_le. lra. }
  assert (Hlong : w < INR (S N) * (tol / 2)).
  { rewrite S_INR. pose proof (up_ge (2 * w / tol)) as A. fold (window_length w tol) in A. fold N in A.
    assert (2 * w <= INR N * tol). { apply Rmult_le_compat_r with (r := tol) in A; [|lra]. replace (2 * w / tol * tol) with (2 * w) in A by (field; lra). exact A. }
    lra. }
  (* as long as the changes are not below tol, each window lowers the largest change by eta *)
  assert (D : forall q, (exists q', (q' <= q)%nat /\ b (N * q')%nat < tol) \/ b (N * q)%nat <= w - INR q * eta).
  { induction q as [|q [(q' & Hq & Hb)|IH]].
    - right. rewrite Nat.mul_0_r. cbn [INR]. lra.
    - left. exists q'. split; [lia|auto].
    - destruct (Rlt_dec (b (N * q)%nat) tol) as [Hlt|Hge]; [left; exists q; split; [lia|auto]|].
      right. destruct (Rle_dec (b (N * S q)%nat) (b (N * q)%nat - eta)) as [Hle|Hgt]; [rewrite S_INR; lra|exfalso].
      set (t := (N * q)%nat) in *. replace (N * S q)%nat with (t + N)%nat in Hgt by (unfold t; lia).
      destruct (bat (t + N)%nat) as (i & Hi & Ei).
      assert (HU : forall k j, (j <= n0)%nat -> (t <= k)%nat -> - b t <= X (S k) j - X k j <= b t).
      { intros k j Hj Hk. pose proof (bge k j Hj) as B1. pose proof (bdec (k - t)%nat t) as B2. replace (t + (k - t))%nat with k in B2 by lia.
        apply abs_between in B1. lra. }
      unfold Rabs in Ei. destruct (Rcase_abs (X (S (t + N)) i - X (t + N)%nat i)) as [Hneg|Hpos].
      + pose proof (window (fun k i => - X k i) (b t) t i N (tol / 2) (evolves_opp X H) Hi) as W. cbv beta in W.
        assert (INR (S N) * (b t - tol / 2) <= - X (S (t + N)) i - - X t i) as W'.
        { apply W; [intros k j Hj Hk; specialize (HU k j Hj Hk); lra|lra|fold eta; lra]. }
        pose proof (HX (S (t + N)) i Hi). pose proof (HX t i Hi). pose proof (pos_INR (S N)). nra.
      + pose proof (window X (b t) t i N (tol / 2) H Hi) as W.
        assert (INR (S N) * (b t - tol / 2) <= X (S (t + N)) i - X t i) as W'.
        { apply W; [intros k j Hj Hk; specialize (HU k j Hj Hk); lra|lra|fold eta; lra]. }
        pose proof (HX (S (t + N)) i Hi). pose proof (HX t i Hi). pose proof (pos_INR (S N)). nra. }
  intros k Hk i Hi. destruct (D Q) as [(q' & Hq & Hb)|Hb].
  - eapply Rle_lt_trans; [apply bge; auto|]. unfold steady_after in Hk. fold N in Hk. fold eta in Hk. fold Q in Hk.
    eapply Rle_lt_trans; [|exact Hb]. replace k with (N * q' + (k - N * q'))%nat by nia. apply bdec.
  - exfalso. destruct (bat (N * Q)%nat) as (j & Hj & Ej). pose proof (Rabs_pos (X (S (N * Q)) j - X (N * Q)%nat j)).
    assert (w < INR Q * eta).
    { unfold Q. rewrite S_INR. pose proof (up_ge (w / eta)) as A. apply Rmult_le_compat_r with (r := eta) in A; [|lra].
      replace (w / eta * eta) with w in A by (field; lra). lra. }
    lra.
Qed.
End Share.
End Steady.
