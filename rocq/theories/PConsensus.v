(** Convergence of repeated averaging over a strongly connected network with self loops (reals). *)
From Verif Require Import Base BaseFacts RFacts STarjan.
From Coq Require Import Reals Lra.
Local Open Scope R_scope.

Lemma common_bound X (P : nat -> X -> Prop) : (forall k k' x, (k <= k')%nat -> P k x -> P k' x) ->
  forall l, (forall x, In x l -> exists k, P k x) -> exists K, forall x, In x l -> P K x.
Proof.
  intros Hm. induction l as [|x l IH]; intros H; [exists 0%nat; intros ? []|].
  destruct (H x) as (k & Hk); [cbn; auto|]. destruct IH as (K & HK); [intros; apply H; cbn; auto|].
  exists (Nat.max k K). intros y [<-|Hy]; [eapply Hm; [|exact Hk]; lia|eapply Hm; [|apply HK; exact Hy]; lia].
Qed.

Lemma common_lower (l : list R) : Forall (fun w => 0 < w) l -> exists m, 0 < m <= 1 /\ Forall (fun w => m <= w) l.
Proof.
  induction 1 as [|w l Hw Hl (m & Hm & IH)]; [exists 1; split; [lra|constructor]|].
  exists (Rmin w m). pose proof (Rmin_l w m). pose proof (Rmin_r w m). split.
  - split; [apply Rmin_glb_lt; lra|lra].
  - constructor; auto. eapply Forall_impl; [|exact IH]. cbn. intros; lra.
Qed.

Lemma Rsum_ge_one l x : Forall (fun w => 0 <= w) l -> In x l -> x <= Rsum l.
Proof. intros H Hin. apply Rsum_nonneg in H as [_ H]. rewrite Forall_forall in H. auto. Qed.

Lemma Rsum_map_sub X (f g : X -> R) l : Rsum (map (fun x => f x - g x) l) = Rsum (map f l) - Rsum (map g l).
Proof. induction l as [|x l IH]; cbn [map]; rewrite ?Rsum_nil, ?Rsum_cons; [lra|]. rewrite IH. lra. Qed.
Lemma Rsum_map_mulr X (f : X -> R) c l : Rsum (map (fun x => f x * c) l) = Rsum (map f l) * c.
Proof. induction l as [|x l IH]; cbn [map]; rewrite ?Rsum_nil, ?Rsum_cons; [lra|]. rewrite IH. lra. Qed.

(** A weighted mean stays below a common bound [M], and below [M - w * d] when one of the averaged
    values, taken with weight [w], is at most [M - d]. *)
Lemma mean_upper (r : list (nat * R)) (f : nat -> R) M :
  Forall (fun p => 0 <= snd p) r -> Rsum (map snd r) = 1 -> (forall p, In p r -> f (fst p) <= M) ->
  Rsum (map (fun p => snd p * f (fst p)) r) <= M /\
  forall j w d, In (j, w) r -> f j <= M - d -> Rsum (map (fun p => snd p * f (fst p)) r) <= M - w * d.
Proof.
  intros Hp Hs Hf.
  assert (E : M - Rsum (map (fun p => snd p * f (fst p)) r) = Rsum (map (fun p => snd p * M - snd p * f (fst p)) r)).
  { rewrite Rsum_map_sub, Rsum_map_mulr, Hs. lra. }
  assert (F : Forall (fun w => 0 <= w) (map (fun p => snd p * M - snd p * f (fst p)) r)).
  { apply Forall_forall. intros x Hx. apply in_map_iff in Hx as (p & <- & Hin). rewrite Forall_forall in Hp.
    specialize (Hp p Hin). specialize (Hf p Hin). nra. }
  split.
  - destruct (Rsum_nonneg _ F) as [H _]. lra.
  - intros j w d Hin Hd. assert (w * M - w * f j <= Rsum (map (fun p => snd p * M - snd p * f (fst p)) r)).
    { apply Rsum_ge_one; auto. apply in_map_iff. exists (j, w). auto. }
    rewrite Forall_forall in Hp. specialize (Hp _ Hin). cbn in Hp. nra.
Qed.

Lemma mean_lower (r : list (nat * R)) (f : nat -> R) m :
  Forall (fun p => 0 <= snd p) r -> Rsum (map snd r) = 1 -> (forall p, In p r -> m <= f (fst p)) ->
  m <= Rsum (map (fun p => snd p * f (fst p)) r).
Proof.
  intros Hp Hs Hf. destruct (mean_upper r (fun j => - f j) (- m) Hp Hs) as [H _].
  { intros p Hin. specialize (Hf p Hin). lra. }
  assert (E : Rsum (map (fun p => snd p * - f (fst p)) r) = - Rsum (map (fun p => snd p * f (fst p)) r)).
  { clear. induction r as [|p r IH]; cbn [map]; rewrite ?Rsum_nil, ?Rsum_cons; [lra|]. rewrite IH. lra. }
  lra.
Qed.

Fixpoint maxf (f : nat -> R) (n : nat) : R := match n with 0 => f 0%nat | S k => Rmax (maxf f k) (f (S k)) end.
Fixpoint minf (f : nat -> R) (n : nat) : R := match n with 0 => f 0%nat | S k => Rmin (minf f k) (f (S k)) end.

Lemma maxf_ge f n i : (i <= n)%nat -> f i <= maxf f n.
Proof.
  induction n as [|n IH]; intros Hi; cbn [maxf].
  - replace i with 0%nat by lia. lra.
  - pose proof (Rmax_l (maxf f n) (f (S n))). pose proof (Rmax_r (maxf f n) (f (S n))).
    destruct (Nat.eq_dec i (S n)) as [->|]; [lra|]. specialize (IH ltac:(lia)). lra.
Qed.
Lemma maxf_at f n : exists j, (j <= n)%nat /\ f j = maxf f n.
Proof.
  induction n as [|n (j & Hj & E)]; cbn [maxf]; [exists 0%nat; auto|].
  destruct (Rle_dec (maxf f n) (f (S n))).
  - exists (S n). split; auto. now rewrite Rmax_right.
  - exists j. split; [lia|]. rewrite Rmax_left by lra. exact E.
Qed.
Lemma minf_le f n i : (i <= n)%nat -> minf f n <= f i.
Proof.
  induction n as [|n IH]; intros Hi; cbn [minf].
  - replace i with 0%nat by lia. lra.
  - pose proof (Rmin_l (minf f n) (f (S n))). pose proof (Rmin_r (minf f n) (f (S n))).
    destruct (Nat.eq_dec i (S n)) as [->|]; [lra|]. specialize (IH ltac:(lia)). lra.
Qed.
Lemma minf_at f n : exists j, (j <= n)%nat /\ f j = minf f n.
Proof.
  induction n as [|n (j & Hj & E)]; cbn [minf]; [exists 0%nat; auto|].
  destruct (Rle_dec (minf f n) (f (S n))).
  - exists j. split; [lia|]. rewrite Rmin_left by lra. exact E.
  - exists (S n). split; auto. rewrite Rmin_right by lra. reflexivity.
Qed.

Section Conv.
Variable n0 : nat.                              (* the agents are 0, ..., n0 *)
Variable rows : nat -> list (nat * R).
Variable X : nat -> nat -> R.                   (* X k i: opinion of i after k steps *)
Hypothesis Hstep : forall k i, (i <= n0)%nat -> X (S k) i = Rsum (map (fun p => snd p * X k (fst p)) (rows i)).
Hypothesis Hin : forall i p, (i <= n0)%nat -> In p (rows i) -> (fst p <= n0)%nat.
Hypothesis Hnn : forall i, (i <= n0)%nat -> Forall (fun p => 0 <= snd p) (rows i).
Hypothesis Hsum : forall i, (i <= n0)%nat -> Rsum (map snd (rows i)) = 1.

Lemma upper_step k M : (forall i, (i <= n0)%nat -> X k i <= M) -> forall i, (i <= n0)%nat -> X (S k) i <= M.
Proof.
  intros H i Hi. rewrite Hstep by auto. apply mean_upper; auto. intros p Hp. apply H. eapply Hin; eauto.
Qed.
Lemma lower_step k m : (forall i, (i <= n0)%nat -> m <= X k i) -> forall i, (i <= n0)%nat -> m <= X (S k) i.
Proof.
  intros H i Hi. rewrite Hstep by auto. apply mean_lower; auto. intros p Hp. apply H. eapply Hin; eauto.
Qed.
Lemma upper_steps t k M : (forall i, (i <= n0)%nat -> X k i <= M) -> forall i, (i <= n0)%nat -> X (k + t) i <= M.
Proof.
  induction t as [|t IH]; intros H; [now rewrite Nat.add_0_r|]. rewrite Nat.add_succ_r. apply upper_step. now apply IH.
Qed.
Lemma lower_steps t k m : (forall i, (i <= n0)%nat -> m <= X k i) -> forall i, (i <= n0)%nat -> m <= X (k + t) i.
Proof.
  induction t as [|t IH]; intros H; [now rewrite Nat.add_0_r|]. rewrite Nat.add_succ_r. apply lower_step. now apply IH.
Qed.

Definition mx k := maxf (X k) n0.
Definition mn k := minf (X k) n0.
Definition spread k := mx k - mn k.

Lemma mx_dec t k : mx (k + t) <= mx k.
Proof.
  unfold mx at 1. destruct (maxf_at (X (k + t)) n0) as (j & Hj & <-).
  apply upper_steps; auto. intros i Hi. now apply maxf_ge.
Qed.
Lemma mn_inc t k : mn k <= mn (k + t).
Proof.
  unfold mn at 2. destruct (minf_at (X (k + t)) n0) as (j & Hj & <-).
  apply lower_steps; auto. intros i Hi. now apply minf_le.
Qed.
Lemma spread_nonneg k : 0 <= spread k.
Proof.
  unfold spread, mx, mn. pose proof (maxf_ge (X k) n0 0 ltac:(lia)). pose proof (minf_le (X k) n0 0 ltac:(lia)). lra.
Qed.

(** [j] influences [i] within [k] steps *)
Fixpoint within (k : nat) (j i : nat) : Prop :=
  match k with
  | 0%nat => i = j
  | S k' => within k' j i \/ exists v, In v (map fst (rows i)) /\ within k' j v
  end.
Lemma within_mono k k' j i : (k <= k')%nat -> within k j i -> within k' j i.
Proof. induction 1; auto. intros H'. cbn. auto. Qed.

Hypothesis Hself : forall i, (i <= n0)%nat -> In i (map fst (rows i)).

Variable wmin : R.
Hypothesis Hw : 0 < wmin <= 1.
Hypothesis Hwmin : forall i p, (i <= n0)%nat -> In p (rows i) -> wmin <= snd p.

Lemma pull k M j : (forall i, (i <= n0)%nat -> X k i <= M) -> (j <= n0)%nat ->
  forall t i, (i <= n0)%nat -> within t j i -> X (k + t) i <= M - wmin ^ t * (M - X k j).
Proof.
  intros HM Hj. assert (Hd : 0 <= M - X k j) by (specialize (HM j Hj); lra).
  induction t as [|t IH]; intros i Hi Hwi.
  - cbn in Hwi. subst. rewrite Nat.add_0_r. cbn. lra.
  - assert (exists v, In v (map fst (rows i)) /\ within t j v) as (v & Hv & Hwv).
    { cbn in Hwi. destruct Hwi as [Hwi|H]; auto. exists i. auto. }
    apply in_map_iff in Hv as ((v', w) & Ev & Hp). cbn in Ev. subst v'.
    pose proof (Hin i _ Hi Hp) as Hvn. cbn in Hvn. specialize (IH v Hvn Hwv).
    pose proof (Hwmin i _ Hi Hp) as Hww. cbn in Hww.
    rewrite Nat.add_succ_r, Hstep by auto.
    destruct (mean_upper (rows i) (X (k + t)%nat) M (Hnn i Hi) (Hsum i Hi)) as [_ H].
    { intros p Hpp. apply upper_steps; auto. exact (Hin i p Hi Hpp). }
    specialize (H v w _ Hp IH). cbn [pow]. pose proof (pow_lt wmin t (proj1 Hw)) as Hpw.
    assert (0 <= wmin ^ t * (M - X k j)) by nra. nra.
Qed.

Variable K : nat.
Hypothesis HK : forall i j, (i <= n0)%nat -> (j <= n0)%nat -> within K j i.

Lemma contraction k : spread (k + K) <= (1 - wmin ^ K) * spread k.
Proof.
  unfold spread. destruct (minf_at (X k) n0) as (j & Hj & Ej).
  assert (HM : forall i, (i <= n0)%nat -> X k i <= mx k) by (intros i Hi; now apply maxf_ge).
  assert (mx (k + K) <= mx k - wmin ^ K * (mx k - mn k)).
  { unfold mx at 1. destruct (maxf_at (X (k + K)) n0) as (i & Hi & <-).
    change (mn k) with (minf (X k) n0). rewrite <- Ej. apply pull; auto. }
  pose proof (mn_inc K k). lra.
Qed.

Lemma contraction_pow q k : spread (k + q * K) <= (1 - wmin ^ K) ^ q * spread k.
Proof.
  assert (B : 0 <= 1 - wmin ^ K <= 1).
  { pose proof (pow_lt wmin K (proj1 Hw)). pose proof (pow_incr wmin 1 K ltac:(lra)). rewrite pow1 in *. lra. }
  induction q as [|q IH]; [cbn; rewrite Nat.add_0_r; lra|].
  replace (k + S q * K)%nat with (k + q * K + K)%nat by lia. pose proof (contraction (k + q * K)).
  cbn [pow]. rewrite Rmult_assoc. eapply Rle_trans; [exact H|]. apply Rmult_le_compat_l; [lra|exact IH].
Qed.

Lemma spread_to_zero eps : 0 < eps -> exists T, forall k, (T <= k)%nat -> spread k < eps.
Proof.
  intros He. pose proof (spread_nonneg 0) as S0. pose proof (pow_lt wmin K (proj1 Hw)) as PW.
  pose proof (pow_incr wmin 1 K ltac:(lra)) as PI. rewrite pow1 in PI.
  destruct (pow_lt_1_zero (1 - wmin ^ K)) with (y := eps / (spread 0 + 1)) as (N & HN).
  - rewrite Rabs_pos_eq; lra.
  - apply Rdiv_lt_0_compat; lra.
  - exists (N * K)%nat. intros k Hk. specialize (HN N (le_n _)).
    assert (spread k <= spread (0 + N * K)).
    { replace k with (N * K + (k - N * K))%nat by lia. unfold spread.
      pose proof (mx_dec (k - N * K) (N * K)). pose proof (mn_inc (k - N * K) (N * K)). cbn [Nat.add]. lra. }
    pose proof (contraction_pow N 0) as C. rewrite Rabs_pos_eq in HN by (apply pow_le; lra).
    assert (P0 : 0 <= (1 - wmin ^ K) ^ N) by (apply pow_le; lra).
    assert ((1 - wmin ^ K) ^ N * (spread 0 + 1) < eps).
    { apply Rmult_lt_reg_r with (/ (spread 0 + 1)); [apply Rinv_0_lt_compat; lra|].
      rewrite Rmult_assoc, Rinv_r, Rmult_1_r by lra. exact HN. }
    nra.
Qed.

Lemma consensus : exists c, mn 0 <= c <= mx 0 /\
  forall eps, 0 < eps -> exists T, forall k i, (T <= k)%nat -> (i <= n0)%nat -> Rabs (X k i - c) < eps.
Proof.
  destruct (decreasing_cv mx) as (c & Hc).
  - intros k. rewrite <- (Nat.add_1_r k). apply mx_dec.
  - exists (- mn 0). intros y (k & ->). unfold opp_seq. pose proof (mn_inc k 0). pose proof (spread_nonneg k). unfold spread in *.
    cbn [Nat.add] in *. lra.
  - assert (Bc : forall k, mn k <= c <= mx k).
    { intros k. split.
      - apply Rnot_lt_le. intros Hlt. destruct (Hc (mn k - c)) as (N & HN); [lra|].
        specialize (HN (k + N)%nat ltac:(lia)). unfold R_dist in HN. pose proof (mn_inc N k). pose proof (spread_nonneg (k + N)).
        unfold spread in *. rewrite Rabs_pos_eq in HN by lra. lra.
      - apply Rnot_lt_le. intros Hlt. destruct (Hc (c - mx k)) as (N & HN); [lra|].
        specialize (HN (k + N)%nat ltac:(lia)). unfold R_dist in HN. pose proof (mx_dec N k).
        rewrite Rabs_left1 in HN by lra. lra. }
    exists c. split; [apply Bc|]. intros eps He. destruct (spread_to_zero eps He) as (T & HT). exists T. intros k i Hk Hi.
    specialize (HT k Hk). unfold spread in HT. specialize (Bc k).
    pose proof (maxf_ge (X k) n0 i Hi). pose proof (minf_le (X k) n0 i Hi). fold (mx k) in *. fold (mn k) in *.
    apply Rabs_def1; lra.
Qed.
End Conv.
