(** Convergence of sequences of pairwise averaging steps (used for the Deffuant model). *)
From Verif Require Import Base BaseFacts RFacts.
From Coq Require Import Reals Lra Psatz Classical.
From Coquelicot Require Import Coquelicot.
Local Open Scope R_scope.

(** ** Sums over the agents *)
Definition total (f : R -> R) (xs : list R) : R := Rsum (map f xs).

Lemma total_upd f l i (x : R) : (i < length l)%nat -> total f (upd l i x) = total f l - f (nth i l 0) + f x.
Proof.
  unfold total. revert i. induction l as [|y l IH]; intros [|i] H; cbn [length] in H; try lia; cbn [upd nth map]; rewrite !Rsum_cons; [lra|].
  rewrite IH by lia. lra.
Qed.
Lemma total_nonneg f l : (forall x, 0 <= f x) -> 0 <= total f l.
Proof. intros H. unfold total. induction l as [|y l IH]; cbn [map]; [change (Rsum nil) with 0; lra|]. rewrite Rsum_cons. specialize (H y). lra. Qed.
Lemma total_ge f l i : (forall x, 0 <= f x) -> (i < length l)%nat -> f (nth i l 0) <= total f l.
Proof.
  intros H. unfold total. revert i. induction l as [|y l IH]; intros [|i] Hi; cbn [length] in Hi; try lia; cbn [nth map]; rewrite Rsum_cons.
  - pose proof (total_nonneg f l H) as N. unfold total in N. lra.
  - specialize (IH i ltac:(lia)). specialize (H y). lra.
Qed.
Lemma total_pos_ex f l : 0 < total f l -> exists i, (i < length l)%nat /\ 0 < f (nth i l 0).
Proof.
  unfold total. induction l as [|y l IH]; cbn [map]; [change (Rsum nil) with 0; lra|]. rewrite Rsum_cons. intros H.
  destruct (Rlt_dec 0 (f y)) as [Hy|Hy]; [exists 0%nat; cbn; split; auto; lia|].
  destruct IH as (i & Hi & Hf); [lra|]. exists (S i). cbn. split; auto; lia.
Qed.

(** The two agents at positions [i] and [j] move towards each other by the fraction [c]. *)
Definition mix (c : R) (i j : nat) (xs : list R) : list R :=
  upd (upd xs i (nth i xs 0 - c * (nth i xs 0 - nth j xs 0))) j (nth j xs 0 + c * (nth i xs 0 - nth j xs 0)).

Lemma mix_length c i j xs : length (mix c i j xs) = length xs.
Proof. unfold mix. now rewrite !upd_length. Qed.
Lemma total_mix f c i j xs : (i < length xs)%nat -> (j < length xs)%nat -> i <> j ->
  total f (mix c i j xs) = total f xs - f (nth i xs 0) - f (nth j xs 0)
    + f (nth i xs 0 - c * (nth i xs 0 - nth j xs 0)) + f (nth j xs 0 + c * (nth i xs 0 - nth j xs 0)).
Proof.
  intros Hi Hj Hne. unfold mix. rewrite total_upd by (rewrite upd_length; exact Hj). rewrite nth_upd_neq by auto. rewrite total_upd by exact Hi. lra.
Qed.
Lemma nth_mix c i j xs k : (i < length xs)%nat -> (j < length xs)%nat -> i <> j ->
  nth k (mix c i j xs) 0 = if Nat.eq_dec k i then nth i xs 0 - c * (nth i xs 0 - nth j xs 0)
    else if Nat.eq_dec k j then nth j xs 0 + c * (nth i xs 0 - nth j xs 0) else nth k xs 0.
Proof.
  intros Hi Hj Hne. unfold mix. destruct (Nat.eq_dec k i) as [->|Hk].
  - rewrite nth_upd_neq by auto. now rewrite nth_upd_eq.
  - destruct (Nat.eq_dec k j) as [->|Hk2].
    + rewrite nth_upd_eq by (rewrite upd_length; auto). reflexivity.
    + rewrite nth_upd_neq by auto. now rewrite nth_upd_neq by auto.
Qed.

(** Hinges: convex functions. *)
Definition hinge (c x : R) : R := Rmax 0 (c - x).
Lemma hinge_nonneg c x : 0 <= hinge c x. Proof. apply Rmax_l. Qed.
Lemma hinge_convex k c x y : 0 <= c <= 1 -> hinge k ((1 - c) * x + c * y) <= (1 - c) * hinge k x + c * hinge k y.
Proof.
  intros Hc. unfold hinge. pose proof (Rmax_l 0 (k - x)). pose proof (Rmax_r 0 (k - x)). pose proof (Rmax_l 0 (k - y)). pose proof (Rmax_r 0 (k - y)).
  apply Rmax_lub; nra.
Qed.
Lemma hinge_pair k c x y : 0 <= c <= 1 -> hinge k (x - c * (x - y)) + hinge k (y + c * (x - y)) <= hinge k x + hinge k y.
Proof.
  intros Hc. pose proof (hinge_convex k c x y Hc) as A. pose proof (hinge_convex k c y x Hc) as B.
  replace (x - c * (x - y)) with ((1 - c) * x + c * y) by ring. replace (y + c * (x - y)) with ((1 - c) * y + c * x) by ring. lra.
Qed.

(** Tents: second differences of hinges. *)
Definition tent (c h x : R) : R := hinge (c + h) x - 2 * hinge c x + hinge (c - h) x.
Lemma tent_val c h x : 0 <= h -> tent c h x = Rmax 0 (h - Rabs (x - c)).
Proof.
  intros Hh. unfold tent, hinge, Rmax, Rabs. repeat destruct (Rle_dec _ _); destruct (Rcase_abs _); lra.
Qed.
Lemma total_tent c h xs : total (tent c h) xs = total (hinge (c + h)) xs - 2 * total (hinge c) xs + total (hinge (c - h)) xs.
Proof.
  unfold total. induction xs as [|x xs IH]; cbn [map]; [change (Rsum nil) with 0; lra|]. rewrite !Rsum_cons, IH. unfold tent. lra.
Qed.

(** ** Real sequences *)
Lemma decr_cv (u : nat -> R) m : (forall t, u (S t) <= u t) -> (forall t, m <= u t) -> exists l : R, is_lim_seq u l.
Proof.
  intros H1 H2. destruct (ex_finite_lim_seq_decr u m H1 H2) as [l Hl]. now exists l.
Qed.
Lemma decr_diff (u : nat -> R) m : (forall t, u (S t) <= u t) -> (forall t, m <= u t) -> is_lim_seq (fun t => u t - u (S t)) 0.
Proof.
  intros H1 H2. destruct (decr_cv u m H1 H2) as [l Hl].
  replace (Finite 0) with (Finite (l - l)) by (f_equal; lra). apply is_lim_seq_minus'; auto. now apply is_lim_seq_incr_1 in Hl.
Qed.

Lemma crossing (u : nat -> R) (c d : R) p : forall k, u p <= c -> c <= u (p + k)%nat ->
  (forall t, (p <= t)%nat -> Rabs (u (S t) - u t) < d) -> 0 < d ->
  exists t, (p <= t)%nat /\ Rabs (u t - c) < d.
Proof.
  induction k as [|k IH]; intros H1 H2 H3 Hd.
  - rewrite Nat.add_0_r in H2. exists p. split; auto. replace (u p - c) with 0 by lra. now rewrite Rabs_R0.
  - destruct (Rle_dec c (u (p + k)%nat)) as [H|H]; [now apply IH|].
    exists (p + k)%nat. split; [lia|]. specialize (H3 (p + k)%nat ltac:(lia)). rewrite Nat.add_succ_r in H2. apply Rabs_def2 in H3. apply Rabs_def1; lra.
Qed.

(** A bounded sequence without a limit is below some [a] and above some [b > a] infinitely often. *)
Lemma oscillates (u : nat -> R) m M : (forall t, m <= u t <= M) -> ~ (exists l : R, is_lim_seq u l) ->
  exists a b, a < b /\ (forall N, exists t, (N <= t)%nat /\ u t < a) /\ (forall N, exists t, (N <= t)%nat /\ b < u t).
Proof.
  intros HB HN. destruct (ex_LimSup_seq u) as [ls HS]. destruct (ex_LimInf_seq u) as [li HI].
  destruct ls as [s| |].
  - destruct li as [i| |].
    + destruct (Rlt_dec i s) as [His|His].
      * exists (i + (s - i) / 3), (s - (s - i) / 3). split; [lra|]. split; intros N.
        -- destruct (HI (mkposreal ((s - i) / 3) ltac:(lra))) as [H1 _]. destruct (H1 N) as (t & Ht & Hu). exists t. split; auto.
        -- destruct (HS (mkposreal ((s - i) / 3) ltac:(lra))) as [H1 _]. destruct (H1 N) as (t & Ht & Hu). exists t. split; auto.
      * exfalso. apply HN. exists i. apply is_lim_seq_spec. intros eps.
        destruct (HS eps) as [_ [N1 H1]]. destruct (HI eps) as [_ [N2 H2]]. exists (Nat.max N1 N2). intros t Ht.
        specialize (H1 t ltac:(lia)). specialize (H2 t ltac:(lia)). apply Rabs_def1; lra.
    + exfalso. destruct (HI (M)) as [N H]. specialize (H N (le_n N)). specialize (HB N). lra.
    + exfalso. destruct (HI m 0%nat) as (t & _ & H). specialize (HB t). lra.
  - exfalso. destruct (HS M 0%nat) as (t & _ & H). specialize (HB t). lra.
  - exfalso. destruct (HS m) as [N H]. specialize (H N (le_n N)). specialize (HB N). lra.
Qed.

(** Pigeonhole: [n + 1] separated points cannot all be close to one of [n] values. *)
Lemma pigeon (n : nat) (P : nat -> nat -> Prop) :
  (forall k, (k <= n)%nat -> exists i, (i < n)%nat /\ P k i) -> exists k1 k2 i, (k1 < k2 <= n)%nat /\ P k1 i /\ P k2 i.
Proof.
  intros H.
  assert (HF : exists f : list nat, length f = S n /\ forall k, (k <= n)%nat -> (nth k f 0 < n)%nat /\ P k (nth k f 0%nat)).
  { assert (G : forall m, (m <= S n)%nat -> exists f : list nat, length f = m /\ forall k, (k < m)%nat -> (nth k f 0 < n)%nat /\ P k (nth k f 0%nat)).
    { induction m as [|m IH]; intros Hm; [exists nil; split; auto; intros; lia|].
      destruct IH as (f & HL & Hf); [lia|]. destruct (H m ltac:(lia)) as (i & Hi & HP). exists (f ++ i :: nil). split; [rewrite app_length; cbn; lia|].
      intros k Hk. destruct (Nat.eq_dec k m) as [->|Hne].
      - rewrite app_nth2 by lia. replace (m - length f)%nat with 0%nat by lia. cbn. auto.
      - rewrite app_nth1 by lia. apply Hf. lia. }
    destruct (G (S n) (le_n _)) as (f & HL & Hf). exists f. split; auto. intros k Hk. apply Hf. lia. }
  destruct HF as (f & HL & Hf).
  destruct (classic (NoDup f)) as [ND|ND].
  - exfalso. assert (HI : incl f (seq 0 n)).
    { intros x Hx. destruct (In_nth f x 0%nat Hx) as (k & Hk & <-). apply in_seq. destruct (Hf k ltac:(lia)). lia. }
    pose proof (NoDup_incl_length ND HI) as L. rewrite seq_length in L. lia.
  - apply NNPP. intros C. apply ND. apply (NoDup_nth f 0%nat). intros i j Hi Hj E.
    destruct (Nat.lt_trichotomy i j) as [Hlt|[->|Hlt]]; auto; exfalso; apply C.
    + exists i, j, (nth i f 0%nat). split; [lia|]. destruct (Hf i ltac:(lia)). destruct (Hf j ltac:(lia)). split; auto. now rewrite E.
    + exists j, i, (nth i f 0%nat). split; [lia|]. destruct (Hf i ltac:(lia)). destruct (Hf j ltac:(lia)). split; auto. now rewrite E.
Qed.

Lemma common_bound (n : nat) (Q : nat -> nat -> Prop) :
  (forall k, (k <= n)%nat -> exists T, forall t, (T <= t)%nat -> Q k t) -> exists T, forall k, (k <= n)%nat -> Q k T.
Proof.
  intros H. assert (G : forall m, (m <= n)%nat -> exists T, forall k t, (k <= m)%nat -> (T <= t)%nat -> Q k t).
  { induction m as [|m IH]; intros Hm.
    - destruct (H 0%nat (Nat.le_0_l _)) as [T HT]. exists T. intros k t Hk. replace k with 0%nat by lia. auto.
    - destruct IH as [T1 H1]; [lia|]. destruct (H (S m) Hm) as [T2 H2]. exists (Nat.max T1 T2). intros k t Hk Ht.
      destruct (Nat.eq_dec k (S m)) as [->|Hne]; [apply H2; lia|apply H1; lia]. }
  destruct (G n (le_n _)) as [T HT]. exists T. intros k Hk. now apply HT.
Qed.

(** ** Sequences of averaging steps *)
Section Steps.
Variables (X : nat -> list R) (n : nat) (c : R) (p : nat -> nat * nat).
Hypothesis HL : forall t, length (X t) = n.
Hypothesis Hc : 0 < c < 1.
(** At every step either nothing happens or two different agents mix. *)
Hypothesis Hstep : forall t, X (S t) = X t \/
  ((fst (p t) < n)%nat /\ (snd (p t) < n)%nat /\ fst (p t) <> snd (p t) /\ X (S t) = mix c (fst (p t)) (snd (p t)) (X t)).

Lemma hinge_decr k t : total (hinge k) (X (S t)) <= total (hinge k) (X t).
Proof using HL Hc Hstep.
  destruct (Hstep t) as [->|(H1 & H2 & H3 & ->)]; [lra|]. rewrite total_mix by (rewrite ?HL; auto).
  match goal with |- _ - hinge _ ?x - hinge _ ?y + _ + _ <= _ => pose proof (hinge_pair k c x y ltac:(lra)) end. lra.
Qed.

Definition V (t : nat) : R := total (fun x => x * x) (X t).
Lemma V_nonneg t : 0 <= V t. Proof. apply total_nonneg. intros x. apply Rle_0_sqr. Qed.
Lemma V_step t : V (S t) = V t \/ ((fst (p t) < n)%nat /\ (snd (p t) < n)%nat /\ fst (p t) <> snd (p t) /\ X (S t) = mix c (fst (p t)) (snd (p t)) (X t) /\
   V t - V (S t) = 2 * c * (1 - c) * (nth (fst (p t)) (X t) 0 - nth (snd (p t)) (X t) 0) ^ 2).
Proof using HL Hstep.
  unfold V. destruct (Hstep t) as [->|(H1 & H2 & H3 & E)]; auto. right. repeat (split; auto). rewrite E.
  rewrite total_mix by (rewrite ?HL; auto). ring.
Qed.
Lemma V_decr t : V (S t) <= V t.
Proof using HL Hc Hstep. destruct (V_step t) as [->|(_ & _ & _ & _ & E)]; [lra|]. assert (0 <= (nth (fst (p t)) (X t) 0 - nth (snd (p t)) (X t) 0) ^ 2) by apply pow2_ge_0.
  assert (0 <= 2 * c * (1 - c)) by nra. revert E. set (z := (nth (fst (p t)) (X t) 0 - nth (snd (p t)) (X t) 0) ^ 2) in *. intros E. assert (0 <= 2 * c * (1 - c) * z) by (apply Rmult_le_pos; auto). lra. Qed.
Lemma V_diff : is_lim_seq (fun t => V t - V (S t)) 0.
Proof using HL Hc Hstep. apply (decr_diff V 0); [exact V_decr|exact V_nonneg]. Qed.

(** The differences of the pairs that mix tend to 0. *)
Lemma gaps_vanish d : 0 < d -> exists T, forall t, (T <= t)%nat -> X (S t) <> X t ->
  Rabs (nth (fst (p t)) (X t) 0 - nth (snd (p t)) (X t) 0) < d.
Proof using HL Hc Hstep.
  intros Hd. pose proof V_diff as HV. apply is_lim_seq_spec in HV.
  assert (He : 0 < 2 * c * (1 - c) * d ^ 2) by (apply Rmult_lt_0_compat; [nra|apply pow_lt; lra]).
  destruct (HV (mkposreal _ He)) as [T HT]. exists T. intros t Ht Hne. specialize (HT t Ht). cbn [pos] in HT.
  destruct (Hstep t) as [E|(H1 & H2 & H3 & E)]; [contradiction|].
  assert (EV : V t - V (S t) = 2 * c * (1 - c) * (nth (fst (p t)) (X t) 0 - nth (snd (p t)) (X t) 0) ^ 2).
  { unfold V. rewrite E. rewrite total_mix by (rewrite ?HL; auto). ring. }
  rewrite EV in HT. set (z := nth (fst (p t)) (X t) 0 - nth (snd (p t)) (X t) 0) in *. apply Rabs_def2 in HT.
  apply Rnot_le_lt. intros Hle. assert (Hsq : d ^ 2 <= z ^ 2).
  { rewrite <- (pow2_abs z). apply pow_incr. lra. }
  assert (0 < 2 * c * (1 - c)) by nra. nra.
Qed.
Lemma moves_vanish d i : 0 < d -> exists T, forall t, (T <= t)%nat -> Rabs (nth i (X (S t)) 0 - nth i (X t) 0) < d.
Proof using HL Hc Hstep.
  intros Hd. destruct (gaps_vanish d Hd) as [T HT]. exists T. intros t Ht.
  destruct (Hstep t) as [E|(H1 & H2 & H3 & E)]; [rewrite E, Rminus_eq_0, Rabs_R0; exact Hd|].
  destruct (list_eq_dec Req_EM_T (X (S t)) (X t)) as [E'|Hne]; [rewrite E', Rminus_eq_0, Rabs_R0; exact Hd|].
  specialize (HT t Ht Hne). rewrite E. rewrite nth_mix by (rewrite ?HL; auto).
  set (x := nth (fst (p t)) (X t) 0) in *. set (y := nth (snd (p t)) (X t) 0) in *.
  assert (HB : Rabs (c * (x - y)) < d).
  { rewrite Rabs_mult. rewrite (Rabs_pos_eq c) by lra. assert (0 <= Rabs (x - y)) by apply Rabs_pos. nra. }
  destruct (Nat.eq_dec i (fst (p t))) as [->|Hk1]; [fold x; replace (x - c * (x - y) - x) with (- (c * (x - y))) by ring; rewrite Rabs_Ropp; exact HB|].
  destruct (Nat.eq_dec i (snd (p t))) as [->|Hk2]; [fold y; replace (y + c * (x - y) - y) with (c * (x - y)) by ring; exact HB|].
  rewrite Rminus_eq_0, Rabs_R0. exact Hd.
Qed.
Lemma bounded i : exists M, forall t, - M <= nth i (X t) 0 <= M.
Proof using HL Hc Hstep.
  assert (HV : forall t, V t <= V 0). { induction t; [lra|]. pose proof (V_decr t). lra. }
  exists (V 0 + 1). intros t. destruct (Nat.lt_ge_cases i n) as [Hi|Hi].
  - pose proof (total_ge (fun x => x * x) (X t) i (fun x => Rle_0_sqr x) ltac:(rewrite HL; exact Hi)) as H. cbv beta in H. fold (V t) in H.
    specialize (HV t). set (x := nth i (X t) 0) in *. split; nra.
  - rewrite nth_overflow by (rewrite HL; exact Hi). pose proof (V_nonneg 0). lra.
Qed.

Lemma tent_cv k h : exists l : R, is_lim_seq (fun t => total (tent k h) (X t)) l.
Proof using HL Hc Hstep.
  destruct (decr_cv _ 0 (hinge_decr (k + h)) (fun t => total_nonneg _ _ (hinge_nonneg _))) as [l1 H1].
  destruct (decr_cv _ 0 (hinge_decr k) (fun t => total_nonneg _ _ (hinge_nonneg _))) as [l2 H2].
  destruct (decr_cv _ 0 (hinge_decr (k - h)) (fun t => total_nonneg _ _ (hinge_nonneg _))) as [l3 H3].
  exists (l1 - 2 * l2 + l3). eapply is_lim_seq_ext; [intros t; symmetry; apply total_tent|].
  apply is_lim_seq_plus'; auto. apply is_lim_seq_minus'; auto.
  apply (is_lim_seq_scal_l (fun t => total (hinge k) (X t)) 2 l2 H2).
Qed.

(** A point that is approached infinitely often is always close to somebody, eventually. *)
Lemma always_somebody k h i : 0 < h -> (i < n)%nat ->
  (forall N, exists t, (N <= t)%nat /\ Rabs (nth i (X t) 0 - k) < h / 2) ->
  exists T, forall t, (T <= t)%nat -> exists j, (j < n)%nat /\ Rabs (nth j (X t) 0 - k) < h.
Proof using HL Hc Hstep.
  intros Hh Hi HN. destruct (tent_cv k h) as [l Hl].
  assert (Hpos : forall x, 0 <= tent k h x) by (intros x; rewrite tent_val by lra; apply Rmax_l).
  apply is_lim_seq_spec in Hl. destruct (Hl (mkposreal (h / 8) ltac:(lra))) as [T HT]. exists T. intros t Ht.
  destruct (HN T) as (t0 & Ht0 & Hc0). pose proof (HT t0 Ht0) as B0. pose proof (HT t Ht) as B. cbn [pos] in B0, B.
  pose proof (total_ge (tent k h) (X t0) i Hpos ltac:(rewrite HL; exact Hi)) as G. rewrite tent_val in G by lra.
  pose proof (Rmax_r 0 (h - Rabs (nth i (X t0) 0 - k))) as G2. apply Rabs_def2 in B0. apply Rabs_def2 in B.
  destruct (total_pos_ex (tent k h) (X t)) as (j & Hj & Hp); [lra|]. exists j. split; [now rewrite HL in Hj|].
  rewrite tent_val in Hp by lra. apply Rnot_le_lt. intros Hle. rewrite Rmax_left in Hp by lra. lra.
Qed.

Theorem opinions_converge i : (i < n)%nat -> exists l : R, is_lim_seq (fun t => nth i (X t) 0) l.
Proof using HL Hc Hstep.
  intros Hi. apply NNPP. intros HN. destruct (bounded i) as [M HM].
  destruct (oscillates _ _ _ HM HN) as (a & b & Hab & Ha & Hb).
  set (w := (b - a) / (INR n + 2)). assert (Hn0 : 0 <= INR n) by apply pos_INR.
  assert (Hw : 0 < w) by (unfold w; apply Rdiv_lt_0_compat; lra).
  set (pt := fun k : nat => a + (INR k + 1) * w). set (h := w / 2).
  assert (Hpt : forall k, (k <= n)%nat -> a < pt k < b).
  { intros k Hk. unfold pt. apply le_INR in Hk. pose proof (pos_INR k). assert (Eb : b = a + (INR n + 2) * w) by (unfold w; field; lra). rewrite Eb. split; nra. }
  assert (HS : forall k, (k <= n)%nat -> exists T, forall t, (T <= t)%nat -> exists j, (j < n)%nat /\ Rabs (nth j (X t) 0 - pt k) < h).
  { intros k Hk. apply (always_somebody (pt k) h i); [unfold h; lra|exact Hi|]. intros N.
    destruct (moves_vanish (h / 2) i ltac:(unfold h; lra)) as [T HT].
    destruct (Ha (Nat.max N T)) as (p0 & Hp0 & Hpa). destruct (Hb p0) as (q & Hq & Hqb). specialize (Hpt k Hk).
    destruct (crossing (fun t => nth i (X t) 0) (pt k) (h / 2) p0 (q - p0)) as (t & Ht & Hcl).
    - lra.
    - replace (p0 + (q - p0))%nat with q by lia. lra.
    - intros t Ht. apply HT. lia.
    - unfold h; lra.
    - exists t. split; [lia|exact Hcl]. }
  destruct (common_bound n (fun k t => exists j, (j < n)%nat /\ Rabs (nth j (X t) 0 - pt k) < h) HS) as [T HT].
  destruct (pigeon n (fun k j => Rabs (nth j (X T) 0 - pt k) < h) HT) as (k1 & k2 & j & Hk & H1 & H2).
  assert (Hd : w <= pt k2 - pt k1). { unfold pt. assert (INR k1 + 1 <= INR k2) by (rewrite <- S_INR; apply le_INR; lia). nra. }
  apply Rabs_def2 in H1. apply Rabs_def2 in H2. unfold h in *. lra.
Qed.

(** Agents that mix infinitely often have the same limit. *)
Theorem mixing_agree i j li lj : is_lim_seq (fun t => nth i (X t) 0) (Finite li) -> is_lim_seq (fun t => nth j (X t) 0) (Finite lj) -> li <> lj ->
  exists T, forall t, (T <= t)%nat -> p t = (i, j) \/ p t = (j, i) -> X (S t) = X t.
Proof using HL Hc Hstep.
  intros Hi Hj Hne. assert (Hd : 0 < Rabs (li - lj)) by (apply Rabs_pos_lt; lra).
  destruct (gaps_vanish (Rabs (li - lj) / 3) ltac:(lra)) as [T0 HT0].
  apply is_lim_seq_spec in Hi. apply is_lim_seq_spec in Hj.
  destruct (Hi (mkposreal (Rabs (li - lj) / 3) ltac:(lra))) as [T1 H1]. destruct (Hj (mkposreal (Rabs (li - lj) / 3) ltac:(lra))) as [T2 H2].
  exists (Nat.max T0 (Nat.max T1 T2)). intros t Ht Hp. destruct (list_eq_dec Req_EM_T (X (S t)) (X t)) as [E|NE]; auto. exfalso.
  specialize (HT0 t ltac:(lia) NE). specialize (H1 t ltac:(lia)). specialize (H2 t ltac:(lia)). cbn [pos] in H1, H2.
  assert (B : Rabs (nth i (X t) 0 - nth j (X t) 0) < Rabs (li - lj) / 3).
  { destruct Hp as [E|E]; rewrite E in HT0; cbn [fst snd] in HT0; auto. now rewrite Rabs_minus_sym. }
  pose proof (Rabs_triang (li - nth i (X t) 0) (nth i (X t) 0 - nth j (X t) 0 + (nth j (X t) 0 - lj))) as A1.
  pose proof (Rabs_triang (nth i (X t) 0 - nth j (X t) 0) (nth j (X t) 0 - lj)) as A2.
  rewrite (Rabs_minus_sym li) in A1.
  replace (li - nth i (X t) 0 + (nth i (X t) 0 - nth j (X t) 0 + (nth j (X t) 0 - lj))) with (li - lj) in A1 by ring. lra.
Qed.
End Steps.

(** The same with the standard library's limits. *)
Section Cv.
Variables (X : nat -> list R) (n : nat) (c : R) (p : nat -> nat * nat).
Hypothesis HL : forall t, length (X t) = n.
Hypothesis Hc : 0 < c < 1.
Hypothesis Hstep : forall t, X (S t) = X t \/
  ((fst (p t) < n)%nat /\ (snd (p t) < n)%nat /\ fst (p t) <> snd (p t) /\ X (S t) = mix c (fst (p t)) (snd (p t)) (X t)).

Theorem opinions_cv i : (i < n)%nat -> exists l : R, Un_cv (fun t => nth i (X t) 0) l.
Proof using HL Hc Hstep.
  intros Hi. destruct (opinions_converge X n c p HL Hc Hstep i Hi) as [l Hl]. exists l. now apply is_lim_seq_Reals.
Qed.
Theorem mixing_cv i j li lj : Un_cv (fun t => nth i (X t) 0) li -> Un_cv (fun t => nth j (X t) 0) lj -> li <> lj ->
  exists T, forall t, (T <= t)%nat -> p t = (i, j) \/ p t = (j, i) -> X (S t) = X t.
Proof using HL Hc Hstep.
  intros Hi Hj. apply is_lim_seq_Reals in Hi. apply is_lim_seq_Reals in Hj. exact (mixing_agree X n c p HL Hc Hstep i j li lj Hi Hj).
Qed.
End Cv.

(** Limits of all the agents at once. *)
Lemma choose_limits (u : nat -> nat -> R) n : (forall i, (i < n)%nat -> exists l, Un_cv (u i) l) ->
  exists L : list R, length L = n /\ forall i, (i < n)%nat -> Un_cv (u i) (nth i L 0).
Proof.
  induction n as [|n IH]; intros H; [exists nil; split; auto; intros; lia|].
  destruct IH as (L & HL & HC); [intros i Hi; apply H; lia|]. destruct (H n ltac:(lia)) as [l Hl].
  exists (L ++ l :: nil). split; [rewrite app_length; cbn; lia|]. intros i Hi. destruct (Nat.eq_dec i n) as [->|Hne].
  - rewrite app_nth2 by lia. replace (n - length L)%nat with 0%nat by lia. exact Hl.
  - rewrite app_nth1 by lia. apply HC. lia.
Qed.
Lemma sum_limit (X : nat -> list R) (L : list R) : (forall t, length (X t) = length L) ->
  (forall i, (i < length L)%nat -> Un_cv (fun t => nth i (X t) 0) (nth i L 0)) -> Un_cv (fun t => Rsum (X t)) (Rsum L).
Proof.
  revert X. induction L as [|l L IH]; intros X HLn HC.
  - apply is_lim_seq_Reals. apply is_lim_seq_ext with (fun _ => 0); [|apply is_lim_seq_const]. intros t. specialize (HLn t). destruct (X t); [reflexivity|discriminate].
  - apply is_lim_seq_Reals. rewrite Rsum_cons.
    apply is_lim_seq_ext with (fun t => nth 0 (X t) 0 + Rsum (tl (X t))).
    { intros t. specialize (HLn t). destruct (X t); [discriminate|]. rewrite Rsum_cons. reflexivity. }
    apply is_lim_seq_plus'.
    + apply is_lim_seq_Reals. apply (HC 0%nat). cbn. lia.
    + apply is_lim_seq_Reals. apply IH.
      * intros t. specialize (HLn t). destruct (X t); cbn in *; lia.
      * intros i Hi. specialize (HC (S i) ltac:(cbn; lia)). cbn [nth] in HC. apply is_lim_seq_Reals. apply is_lim_seq_Reals in HC.
        refine (is_lim_seq_ext _ _ _ _ HC). intros t. specialize (HLn t). destruct (X t); [discriminate|reflexivity].
Qed.
Lemma cv_subseq (u : nat -> R) l k : (0 < k)%nat -> Un_cv u l -> Un_cv (fun t => u (t * k)%nat) l.
Proof. intros Hk H eps He. destruct (H eps He) as [N HN]. exists N. intros t Ht. apply HN. nia. Qed.
Lemma cv_gap (u v : nat -> R) lu lv d : Un_cv u lu -> Un_cv v lv -> (forall N, exists t, (N <= t)%nat /\ d <= Rabs (u t - v t)) -> d <= Rabs (lu - lv).
Proof.
  intros Hu Hv H. apply Rnot_lt_le. intros Hlt. set (e := (d - Rabs (lu - lv)) / 2). assert (He : 0 < e) by (unfold e; lra).
  destruct (Hu e He) as [N1 H1]. destruct (Hv e He) as [N2 H2]. destruct (H (Nat.max N1 N2)) as (t & Ht & Hd).
  specialize (H1 t ltac:(lia)). specialize (H2 t ltac:(lia)). unfold R_dist in H1, H2.
  pose proof (Rabs_triang (u t - lu) ((lu - lv) + (lv - v t))) as A1. pose proof (Rabs_triang (lu - lv) (lv - v t)) as A2.
  rewrite (Rabs_minus_sym lv) in A2. replace (u t - lu + (lu - lv + (lv - v t))) with (u t - v t) in A1 by ring. unfold e in *. lra.
Qed.

(** Nonnegative drops of a nonnegative quantity: only finitely many are large. *)
Lemma few_drops (W : nat -> R) (d : R) : (forall t, W (S t) <= W t) -> (forall t, 0 <= W t) -> forall ts, NoDup ts ->
  (forall t, In t ts -> d <= W t - W (S t)) -> INR (length ts) * d <= W 0%nat.
Proof.
  intros Hdec Hpos.
  assert (Htel : forall T, Rsum (map (fun t => W t - W (S t)) (seq 0 T)) = W 0%nat - W T).
  { induction T as [|T IH]; [cbn [seq map]; rewrite Rsum_nil; lra|]. rewrite seq_S, map_app, Rsum_app, IH. rewrite Nat.add_0_l; cbn [map]. rewrite Rsum_cons, Rsum_nil. lra. }
  assert (Hsub : forall ts l, NoDup ts -> incl ts l -> Rsum (map (fun t => W t - W (S t)) ts) <= Rsum (map (fun t => W t - W (S t)) l)).
  { induction ts as [|t ts IH]; intros l HN HI.
    - cbn [map]. rewrite Rsum_nil. apply Rsum_nonneg. apply List.Forall_forall. intros w Hw. apply in_map_iff in Hw. destruct Hw as (x & <- & _). specialize (Hdec x). lra.
    - apply NoDup_cons_iff in HN. destruct HN as [HN1 HN2]. destruct (in_split t l (HI t (or_introl eq_refl))) as (l1 & l2 & ->).
      rewrite map_app, Rsum_app. cbn [map]. rewrite !Rsum_cons. specialize (IH (l1 ++ l2) HN2).
      rewrite map_app, Rsum_app in IH.
      assert (Hi : incl ts (l1 ++ l2)).
      { intros x Hx. specialize (HI x (or_intror Hx)). apply in_app_iff in HI. apply in_app_iff. destruct HI as [?|[->|?]]; auto. contradiction. }
      specialize (IH Hi). lra. }
  intros ts HN HD.
  assert (HT : exists T, incl ts (seq 0 T)).
  { clear. induction ts as [|t ts [T IH]]; [exists 0%nat; intros x []|]. exists (S (Nat.max t T)). intros x [->|Hx]; [apply in_seq; lia|].
    specialize (IH x Hx). apply in_seq in IH. apply in_seq. lia. }
  destruct HT as [T HT]. pose proof (Hsub ts (seq 0 T) HN HT) as B. rewrite Htel in B. specialize (Hpos T).
  assert (A : INR (length ts) * d <= Rsum (map (fun t => W t - W (S t)) ts)).
  { clear - HD. induction ts as [|t ts IH]; [cbn [length map]; rewrite Rsum_nil; simpl INR; lra|].
    cbn [length map]. rewrite S_INR, Rsum_cons. pose proof (HD t (or_introl eq_refl)). specialize (IH (fun x Hx => HD x (or_intror Hx))). lra. }
  lra.
Qed.
