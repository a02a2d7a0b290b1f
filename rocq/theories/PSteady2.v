(** Every opinion converges when every agent keeps a positive share of its own opinion: a point at which
    the trajectory accumulates is fixed by the averaging, and the distance to a fixed point never grows. *)
From Verif Require Import Base BaseFacts RFacts PConsensus PSteady.
From Coq Require Import Reals Lra ConstructiveEpsilon.
Local Open Scope R_scope.

(** ** Accumulation points of bounded sequences of vectors *)
Definition near (n : nat) (X : nat -> nat -> R) (y : nat -> R) (eps : R) (k : nat) : Prop :=
  forall i, (i < n)%nat -> Rabs (X k i - y i) < eps.
Definition accumulates (n : nat) (X : nat -> nat -> R) (y : nat -> R) : Prop :=
  forall eps N, 0 < eps -> exists k, (N <= k)%nat /\ near n X y eps k.

Lemma near_dec n X y eps k : {near n X y eps k} + {~ near n X y eps k}.
Proof.
  induction n as [|n [IH|IH]].
  - left. intros i Hi. lia.
  - destruct (Rlt_dec (Rabs (X k n - y n)) eps) as [H|H].
    + left. intros i Hi. destruct (Nat.eq_dec i n) as [->|]; auto. apply IH. lia.
    + right. intros G. apply H. apply G. lia.
  - right. intros G. apply IH. intros i Hi. apply G. lia.
Qed.

Section Extract.
Variables (n : nat) (X : nat -> nat -> R) (y : nat -> R).
Hypothesis H : accumulates n X y.
Lemma inv_pos k : 0 < / INR (S k).
Proof. apply Rinv_0_lt_compat, lt_0_INR. lia. Qed.
Definition good (k N p : nat) : Prop := (N <= p)%nat /\ near n X y (/ INR (S k)) p.
Lemma good_dec k N p : {good k N p} + {~ good k N p}.
Proof.
  unfold good. destruct (le_dec N p); [|right; tauto]. destruct (near_dec n X y (/ INR (S k)) p); [left; auto|right; tauto].
Qed.
Definition pick (k N : nat) : nat := proj1_sig (constructive_indefinite_ground_description_nat (good k N) (good_dec k N) (H (/ INR (S k)) N (inv_pos k))).
Lemma pick_ok k N : good k N (pick k N).
Proof. unfold pick. destruct (constructive_indefinite_ground_description_nat _ _ _) as [p Hp]. exact Hp. Qed.
Fixpoint phi (k : nat) : nat := match k with 0 => pick 0 0 | S k' => pick (S k') (S (phi k')) end.
Lemma phi_near k : near n X y (/ INR (S k)) (phi k).
Proof. destruct k; cbn [phi]; apply pick_ok. Qed.
Lemma phi_lt k : (phi k < phi (S k))%nat.
Proof. cbn [phi]. destruct (pick_ok (S k) (S (phi k))) as [A _]. lia. Qed.
Lemma phi_ge k : (k <= phi k)%nat.
Proof. induction k as [|k IH]; [lia|]. pose proof (phi_lt k). lia. Qed.
End Extract.

Lemma accumulation_point n X lo hi : (forall k i, (i < n)%nat -> lo <= X k i <= hi) -> exists y, accumulates n X y.
Proof.
  revert X. induction n as [|n IH]; intros X HX.
  - exists (fun _ => 0). intros eps N _. exists N. split; [lia|]. intros i Hi. lia.
  - destruct (IH X) as (y & Hy); [intros; apply HX; lia|].
    set (p := phi n X y Hy).
    destruct (Bolzano_Weierstrass (fun k => X (p k) n) (fun x => lo <= x <= hi) (compact_P3 lo hi)) as (l & Hl).
    { intros k. apply HX. lia. }
    exists (fun i => if (i =? n)%nat then l else y i). intros eps N He.
    destruct (archimed_cor1 eps He) as (m & Hm & Hm0).
    destruct (Hl (disc l (mkposreal eps He)) (Nat.max N m)) as (k & Hk & Dk).
    { exists (mkposreal eps He). intros x Hx. exact Hx. }
    exists (p k). pose proof (phi_ge n X y Hy k) as G. fold p in G. split; [lia|]. intros i Hi.
    destruct (Nat.eqb_spec i n) as [->|Hne]; [exact Dk|].
    pose proof (phi_near n X y Hy k i ltac:(lia)) as B. fold p in B. eapply Rlt_trans; [exact B|].
    eapply Rle_lt_trans; [|exact Hm]. apply Rinv_le_contravar; [apply lt_0_INR; lia|]. apply le_INR. lia.
Qed.

Section Converge.
Variable n0 : nat.
Variable rows : nat -> list (nat * R).
Hypothesis Hin : forall i p, (i <= n0)%nat -> In p (rows i) -> (fst p <= n0)%nat.
Hypothesis Hnn : forall i, (i <= n0)%nat -> Forall (fun p => 0 <= snd p) (rows i).
Hypothesis Hsum : forall i, (i <= n0)%nat -> Rsum (map snd (rows i)) = 1.
Variable delta : R.
Hypothesis Hdelta : 0 < delta <= 1.
Hypothesis Hself : forall i, (i <= n0)%nat -> exists w, In (i, w) (rows i) /\ delta <= w.

Lemma mean_close (f h : nat -> R) eps i : (i <= n0)%nat -> (forall j, (j <= n0)%nat -> Rabs (f j - h j) <= eps) ->
  Rabs (Rsum (map (fun p => snd p * f (fst p)) (rows i)) - Rsum (map (fun p => snd p * h (fst p)) (rows i))) <= eps.
Proof using Hin Hnn Hsum.
  intros Hi HE. rewrite <- Rsum_map_sub.
  replace (Rsum (map (fun x => snd x * f (fst x) - snd x * h (fst x)) (rows i)))
    with (Rsum (map (fun p => snd p * (fun j => f j - h j) (fst p)) (rows i))) by (f_equal; apply map_ext; intros p; lra).
  apply Rabs_le. split.
  - apply (mean_lower (rows i) (fun j => f j - h j)); auto. intros p Hp. specialize (HE (fst p) (Hin i p Hi Hp)). apply abs_between in HE. lra.
  - apply (mean_upper (rows i) (fun j => f j - h j)); auto. intros p Hp. specialize (HE (fst p) (Hin i p Hi Hp)). apply abs_between in HE. lra.
Qed.

Lemma converges X lo hi : evolves n0 rows X -> (forall i, (i <= n0)%nat -> lo <= X 0%nat i <= hi) ->
  exists y : nat -> R,
    (forall i, (i <= n0)%nat -> y i = Rsum (map (fun p => snd p * y (fst p)) (rows i))) /\
    forall eps, 0 < eps -> exists T, forall k, (T <= k)%nat -> forall i, (i <= n0)%nat -> Rabs (X k i - y i) < eps.
Proof using Hin Hnn Hsum Hdelta Hself.
  intros H H0.
  assert (HX : forall k i, (i < S n0)%nat -> lo <= X k i <= hi).
  { intros k i Hi. split.
    - apply (lower_steps n0 rows X H Hin Hnn Hsum k 0 lo); auto; [|lia]. intros; now apply H0.
    - apply (upper_steps n0 rows X H Hin Hnn Hsum k 0 hi); auto; [|lia]. intros; now apply H0. }
  destruct (accumulation_point (S n0) X lo hi HX) as (y & Hy). exists y.
  assert (Hfix : forall i, (i <= n0)%nat -> y i = Rsum (map (fun p => snd p * y (fst p)) (rows i))).
  { intros i Hi. apply cond_eq. intros eps He.
    pose proof (steady n0 rows Hin Hnn Hsum delta Hdelta Hself X lo hi (hi - lo) (eps / 4) H H0 ltac:(lra) ltac:(lra)) as HS.
    destruct (Hy (eps / 4) (steady_after delta (hi - lo) (eps / 4)) ltac:(lra)) as (k & Hk & Nk).
    specialize (HS k Hk i Hi). pose proof (Nk i ltac:(lia)) as N1.
    pose proof (mean_close (X k) y (eps / 4) i Hi) as MC. rewrite <- (H k i Hi) in MC.
    assert (MC' := MC ltac:(intros j Hj; apply Rlt_le, Nk; lia)). clear MC.
    set (v := Rsum (map (fun p => snd p * y (fst p)) (rows i))) in *.
    replace (y i - v) with ((X (S k) i - v) - (X (S k) i - X k i) - (X k i - y i)) by ring.
    apply abs_between in MC'. apply Rabs_def2 in HS. apply Rabs_def2 in N1. apply Rabs_def1; lra. }
  split; auto. intros eps He. destruct (Hy (eps / 2) 0%nat ltac:(lra)) as (T & _ & NT). exists T. intros k Hk i Hi.
  pose proof (abs_steps n0 rows Hin Hnn Hsum (fun k i => X k i - y i) (eps / 2) (k - T) T (evolves_minus n0 rows X y H Hfix)) as A.
  replace (T + (k - T))%nat with k in A by lia. eapply Rle_lt_trans; [apply A; auto|lra].
  intros j Hj. apply Rlt_le, NT. lia.
Qed.
End Converge.
