(** Expectations in the Deffuant model without a network. *)
From Verif Require Import Base BaseFacts Arith64 MRandom SRandom PRandom RFacts TRandom SProb SProb2 PProb PProb10 SLaw PLaw PLaw2
  MNetwork SNetwork PNetwork2 MAgents MDeGroot SDeGroot MDeffuant SDeffuant PDeffuant TDeffuant.
From Coq Require Import Reals Lra Lia Psatz.
Local Open Scope R_scope.

(** [grows n P Inv q c]: [P] reads at most [n] variates, keeps [Inv], and multiplies the expectation of
    [q] by [c]. *)
Definition grows {X : Type} (n : nat) (P : X -> list R -> res (X * list R)) (Inv : X -> Prop) (q : X -> R) (c : R) : Prop :=
  forall x, Inv x -> forall (b : R) (K : X -> list R -> R) M,
    (forall y, Inv y -> forall M', (M <= M')%nat -> expects M' (K y) (b * q y)) ->
    forall M', (n + M <= M')%nat -> expects M' (fun us => continue K (P x us)) (b * c * q x).

Lemma grows_law {X} n (P : X -> list R -> res (X * list R)) (Inv : X -> Prop) (q : X -> R) (c : R) (E : X -> (X -> R) -> R) :
  (forall x, Inv x -> law n (P x) Inv (E x)) -> (forall x b, Inv x -> E x (fun y => b * q y) = b * c * q x) -> grows n P Inv q c.
Proof. intros HL HE x Hx b K M HK M' HM. rewrite <- HE by auto. now apply (HL x Hx K (fun y => b * q y) M). Qed.
Lemma grows_ret {X} (P : X -> list R -> res (X * list R)) (Inv : X -> Prop) (q : X -> R) : (forall x us, P x us = Ok (x, us)) -> grows 0 P Inv q 1.
Proof.
  intros HP x Hx b K M HK M' HM. rewrite Rmult_1_r. apply (expects_ext _ _ (K x)); [intros us _ _; now rewrite HP|]. apply HK; auto.
Qed.
Lemma grows_bind {X} n m (P Q : X -> list R -> res (X * list R)) (Inv : X -> Prop) (q : X -> R) (c d : R) :
  grows n P Inv q c -> grows m Q Inv q d -> grows (n + m) (fun x us => bind (P x us) (fun r => Q (fst r) (snd r))) Inv q (c * d).
Proof.
  intros HP HQ x Hx b K M HK M' HM.
  apply (expects_ext _ _ (fun us => continue (fun y t => continue K (Q y t)) (P x us))).
  { intros us _ _. now destruct (P x us) as [[y t]| | |]. }
  replace (b * (c * d) * q x) with (b * d * c * q x) by ring.
  apply (HP x Hx (b * d) (fun y t => continue K (Q y t)) (m + M)%nat); [|lia].
  intros y Hy M1 HM1. now apply (HQ y Hy b K M).
Qed.
Lemma grows_ext {X} n (P Q : X -> list R -> res (X * list R)) (Inv : X -> Prop) (q : X -> R) (c : R) : grows n P Inv q c -> (forall x us, Inv x -> Q x us = P x us) -> grows n Q Inv q c.
Proof. intros H HE x Hx b K M HK M' HM. apply (expects_ext _ _ (fun us => continue K (P x us))); [intros us _ _; now rewrite HE|]. now apply (H x Hx b K M). Qed.
Lemma grows_for {X} n (body : nat -> X * list R -> res (X * list R)) (Inv : X -> Prop) (q : X -> R) (c : R) :
  (forall j, grows n (fun x us => body j (x, us)) Inv q c) ->
  forall m i, grows (m * n) (fun x us => for_from i m body (x, us)) Inv q (c ^ m).
Proof.
  intros H. induction m as [|m IH]; intros i; cbn [for_from Nat.mul].
  - now apply grows_ret.
  - apply grows_ext with (fun x us => bind (body i (x, us)) (fun r => (fun y vs => for_from (S i) m body (y, vs)) (fst r) (snd r))).
    + apply (grows_bind n (m * n) (fun x us => body i (x, us)) (fun y vs => for_from (S i) m body (y, vs))); auto.
    + intros x us _. destruct (body i (x, us)) as [[y vs]| | |]; reflexivity.
Qed.
Lemma grows_expectation {X} n (P : X -> list R -> res (X * list R)) (Inv : X -> Prop) (q : X -> R) (c : R) x : grows n P Inv q c -> Inv x ->
  expectation (fun us => of_result q (P x us)) (c * q x).
Proof.
  intros H Hx. exists n. intros n' Hn. apply (expects_ext _ _ (fun us => continue (fun y _ => q y) (P x us))).
  { intros us _ _. now destruct (P x us) as [[y t]| | |]. }
  replace (c * q x) with (1 * c * q x) by ring. apply (H x Hx 1 (fun y _ => q y) 0%nat); [|lia].
  intros y _ M' _. rewrite Rmult_1_l. apply expects_const.
Qed.

(** ** One encounter *)
Definition moved (mu : R) (i j : nat) (xs : list R) : list R :=
  let d := nth i xs 0 - nth j xs 0 in upd (upd xs i (nth i xs 0 - mu * d)) j (nth j xs 0 + mu * d).
Definition moved_agents (mu : R) (i j : nat) (l : list (simple_agent R)) : list (simple_agent R) :=
  map mkSimple (moved mu i j (map s_opinion l)).

Lemma pair_in (l : list nat) p : In p (sublists 2 l) -> exists i j, p = [i; j] /\ In i l /\ In j l.
Proof.
  induction l as [|x l IH]; cbn [sublists]; [intros []|]. intros H. apply in_app_or in H as [H|H].
  - rewrite sublists_1, map_map in H. apply in_map_iff in H as (y & <- & Hy). exists x, y. cbn. auto.
  - destruct (IH H) as (i & j & E & Hi & Hj). exists i, j. cbn. auto.
Qed.
Lemma pair_in_seq n s p : In p (sublists 2 (seq s n)) -> exists i j, p = [i; j] /\ (s <= i < j)%nat /\ (j < s + n)%nat.
Proof.
  revert s. induction n as [|n IH]; intros s; cbn [seq sublists]; [intros []|]. intros H. apply in_app_or in H as [H|H].
  - rewrite sublists_1, map_map in H. apply in_map_iff in H as (y & <- & Hy). apply in_seq in Hy. exists s, y. split; auto. lia.
  - destruct (IH _ H) as (i & j & E & Hi & Hj). exists i, j. split; auto. lia.
Qed.

Lemma dispersion_eq xs : (0 < length xs)%nat -> dispersion xs = sumsq xs - Rsum xs * Rsum xs / INR (length xs).
Proof.
  intros Hn. assert (0 < INR (length xs)) by (now apply lt_0_INR). unfold dispersion. set (a := average xs).
  assert (E : forall l, total (fun x => (x - a) * (x - a)) l = sumsq l - 2 * a * Rsum l + INR (length l) * (a * a)).
  { induction l as [|x l IH]; [unfold total, sumsq, Rsum; cbn [fold_right map length INR sublists]; ring|].
    change (total (fun x => (x - a) * (x - a)) (x :: l)) with ((x - a) * (x - a) + total (fun x => (x - a) * (x - a)) l). rewrite IH.
    unfold sumsq. cbn [map length]. rewrite !Rsum_cons, S_INR. ring. }
  rewrite E. unfold a, average. rewrite total_Rsum, map_id. field. lra.
Qed.
Lemma moved_length mu i j xs : length (moved mu i j xs) = length xs.
Proof. unfold moved. now rewrite !upd_length. Qed.
Lemma moved_sum mu i j xs : (i < length xs)%nat -> (j < length xs)%nat -> i <> j -> Rsum (moved mu i j xs) = Rsum xs.
Proof.
  intros Hi Hj Hne. unfold moved. rewrite Rsum_upd by (now rewrite upd_length). rewrite Rsum_upd by auto.
  rewrite nth_upd_neq by auto. ring.
Qed.
Lemma moved_average mu i j xs : (i < length xs)%nat -> (j < length xs)%nat -> i <> j -> average (moved mu i j xs) = average xs.
Proof. intros Hi Hj Hne. unfold average. rewrite !total_Rsum, !map_id, moved_length. now rewrite moved_sum. Qed.
Lemma moved_dispersion mu i j xs : (i < length xs)%nat -> (j < length xs)%nat -> i <> j ->
  dispersion (moved mu i j xs) = dispersion xs - 2 * mu * (1 - mu) * ((nth i xs 0 - nth j xs 0) * (nth i xs 0 - nth j xs 0)).
Proof.
  intros Hi Hj Hne. rewrite !dispersion_eq by (rewrite ?moved_length; lia). rewrite moved_sum, moved_length by auto.
  unfold moved. rewrite sumsq_upd by (now rewrite upd_length). rewrite sumsq_upd by auto. rewrite nth_upd_neq by auto. ring.
Qed.
Lemma moved_nth mu i j xs k : (i < length xs)%nat -> (j < length xs)%nat -> i <> j ->
  nth k (moved mu i j xs) 0 = nth k xs 0 + (if (i =? k)%nat then - mu * (nth k xs 0 - nth j xs 0) else if (j =? k)%nat then - mu * (nth k xs 0 - nth i xs 0) else 0).
Proof.
  intros Hi Hj Hne. unfold moved. destruct (Nat.eqb_spec i k) as [<-|Nik].
  - rewrite nth_upd_neq by auto. rewrite nth_upd_eq by auto. ring.
  - destruct (Nat.eqb_spec j k) as [<-|Njk].
    + rewrite nth_upd_eq by (now rewrite upd_length). ring.
    + rewrite !nth_upd_neq by auto. ring.
Qed.
Lemma moved_range mu i j xs lo hi : (i < length xs)%nat -> (j < length xs)%nat -> 0 <= mu <= 1 ->
  (forall x, In x xs -> lo <= x <= hi) -> forall x, In x (moved mu i j xs) -> lo <= x <= hi.
Proof.
  intros Hi Hj Hmu HR x Hx. pose proof (HR _ (nth_In xs 0 Hi)) as B1. pose proof (HR _ (nth_In xs 0 Hj)) as B2.
  apply In_nth_error in Hx as (k & Hk). unfold moved in Hk. revert Hk. cbv zeta. generalize dependent (nth i xs 0). generalize dependent (nth j xs 0).
  intros y B2 z B1 Hk. rewrite nth_error_upd in Hk. destruct ((j =? k)%nat && _) eqn:T.
  - injection Hk as <-. nra.
  - rewrite nth_error_upd in Hk. destruct ((i =? k)%nat && _) eqn:T2.
    + injection Hk as <-. nra.
    + apply HR. eapply nth_error_In; eauto.
Qed.
(** Being within a window of less than the threshold is kept. *)
Definition within (t : R) (xs : list R) : Prop := exists lo hi, hi - lo < t /\ forall x, In x xs -> lo <= x <= hi.
Lemma within_moved mu t i j xs : (i < length xs)%nat -> (j < length xs)%nat -> 0 <= mu <= 1 -> within t xs -> within t (moved mu i j xs).
Proof. intros Hi Hj Hmu (lo & hi & H & HR). exists lo, hi. split; auto. eapply moved_range; eauto. Qed.
Lemma spread_within t xs : xs <> [] -> spread_below t xs -> within t xs.
Proof.
  intros Hne HS. 
  assert (G : forall l : list R, l <> [] -> exists lo hi, In lo l /\ In hi l /\ forall x, In x l -> lo <= x <= hi).
  { induction l as [|x l IH]; [congruence|]. intros _. destruct l as [|y l].
    - exists x, x. split; [now left|]. split; [now left|]. intros z [<-|[]]. lra.
    - destruct IH as (lo & hi & I1 & I2 & HR); [discriminate|]. exists (Rmin x lo), (Rmax x hi). split; [|split].
      + unfold Rmin. destruct (Rle_dec x lo); [now left|now right].
      + unfold Rmax. destruct (Rle_dec x hi); [now right|now left].
      + intros z [<-|Hz]; [split; [apply Rmin_l|apply Rmax_l]|]. destruct (HR z Hz). split; [eapply Rle_trans; [apply Rmin_r|auto]|eapply Rle_trans; [|apply Rmax_r]; auto]. }
  destruct (G xs Hne) as (lo & hi & I1 & I2 & HR). exists lo, hi. split; auto.
  specialize (HS hi lo I2 I1). apply Rabs_def2 in HS. lra.
Qed.
Lemma within_close t xs x y : within t xs -> In x xs -> In y xs -> Rabs (x - y) < t.
Proof. intros (lo & hi & H & HR) Hx Hy. apply HR in Hx. apply HR in Hy. apply Rabs_def1; lra. Qed.

(** Sums over pairs. *)
Lemma pairs_squares xs : total (fun p => (nth 0 p 0 - nth 1 p 0) * (nth 0 p 0 - nth 1 p 0)) (sublists 2 xs) = INR (length xs) * sumsq xs - Rsum xs * Rsum xs.
Proof.
  induction xs as [|x xs IH]; [unfold total, sumsq, Rsum; cbn [fold_right map length INR sublists]; ring|]. cbn [sublists]. rewrite total_app, IH, total_map, sublists_1, total_map. cbn [nth length].
  assert (E : forall l, total (fun y => (x - y) * (x - y)) l = INR (length l) * (x * x) - 2 * x * Rsum l + sumsq l).
  { induction l as [|y l IHl]; [unfold total, sumsq, Rsum; cbn [fold_right map length INR sublists]; ring|].
    change (total (fun y => (x - y) * (x - y)) (y :: l)) with ((x - y) * (x - y) + total (fun y => (x - y) * (x - y)) l). rewrite IHl.
    unfold sumsq. cbn [map length]. rewrite !Rsum_cons, S_INR. ring. }
  rewrite E, S_INR. unfold sumsq. cbn [map]. rewrite !Rsum_cons. ring.
Qed.
Lemma nth_seq_R (l : list R) : map (fun p => nth p l 0) (seq 0 (length l)) = l.
Proof. induction l as [|x l IH]; cbn [length seq map]; auto. f_equal. rewrite <- seq_shift, map_map. exact IH. Qed.
Lemma pairs_index (f : R -> R -> R) xs :
  total (fun p => f (nth (nth 0 p 0%nat) xs 0) (nth (nth 1 p 0%nat) xs 0)) (sublists 2 (seq 0 (length xs))) = total (fun p => f (nth 0 p 0) (nth 1 p 0)) (sublists 2 xs).
Proof.
  replace (sublists 2 xs) with (map (map (fun p => nth p xs 0)) (sublists 2 (seq 0 (length xs)))) by (now rewrite <- sublists_map, nth_seq_R).
  rewrite total_map. apply total_ext. intros p Hp.
  apply pair_in_seq in Hp as (i & j & -> & _). reflexivity.
Qed.
Lemma pairs_with k (h : nat -> R) l : NoDup l ->
  total (fun p => if (nth 0 p 0 =? k)%nat then h (nth 1 p 0%nat) else if (nth 1 p 0 =? k)%nat then h (nth 0 p 0%nat) else 0) (sublists 2 l) =
  (if in_dec Nat.eq_dec k l then total (fun j => if (j =? k)%nat then 0 else h j) l else 0).
Proof.
  induction 1 as [|x l Hx ND IH]; [reflexivity|]. cbn [sublists]. rewrite total_app, IH, total_map, sublists_1, total_map. cbn [nth].
  assert (E : forall l', total (fun j => if (j =? k)%nat then 0 else h j) (x :: l') = (if (x =? k)%nat then 0 else h x) + total (fun j => if (j =? k)%nat then 0 else h j) l') by reflexivity.
  rewrite E. destruct (Nat.eqb_spec x k) as [->|Nx].
  - destruct (in_dec Nat.eq_dec k l) as [Hl|_]; [contradiction|]. destruct (in_dec Nat.eq_dec k (k :: l)) as [_|H]; [|exfalso; apply H; now left].
    rewrite Rplus_0_r, Rplus_0_l. apply total_ext. intros j Hj. destruct (Nat.eqb_spec j k) as [->|]; [contradiction|reflexivity].
  - destruct (in_dec Nat.eq_dec k l) as [Hl|Hl].
    + destruct (in_dec Nat.eq_dec k (x :: l)) as [_|H]; [|exfalso; apply H; now right]. f_equal.
      clear -Hl ND. induction ND as [|y l Hy ND IH]; [destruct Hl|].
      change (total (fun x0 => if (x0 =? k)%nat then h x else 0) (y :: l)) with ((if (y =? k)%nat then h x else 0) + total (fun x0 => if (x0 =? k)%nat then h x else 0) l).
      destruct (Nat.eqb_spec y k) as [->|Ny].
      * rewrite (total_ext _ (fun _ => 0)); [rewrite total_const; ring|]. intros j Hj. destruct (Nat.eqb_spec j k) as [->|]; [contradiction|reflexivity].
      * destruct Hl as [->|Hl]; [congruence|]. rewrite IH by auto. lra.
    + destruct (in_dec Nat.eq_dec k (x :: l)) as [[H|H]|_]; try contradiction.
      rewrite (total_ext _ (fun _ => 0)); [rewrite total_const; ring|]. intros j Hj. destruct (Nat.eqb_spec j k) as [->|]; [contradiction|reflexivity].
Qed.
Lemma pairs_number n : (2 <= n)%nat -> INR (length (sublists 2 (seq 0 n))) = INR n * (INR n - 1) / 2.
Proof.
  intros H. rewrite sublists_count by (rewrite seq_length; lia). rewrite seq_length. destruct n as [|[|n]]; try lia.
  rewrite C_first by lia. rewrite C_first by lia. rewrite C_0. rewrite !S_INR. cbn [INR]. pose proof (pos_INR n). field.
Qed.

(** The mean over all pairs of the dispersion, and of an agent's distance from the mean, after the
    encounter. *)
Lemma mean_dispersion mu xs : (2 <= length xs)%nat ->
  mean_of (fun p => dispersion (moved mu (nth 0 p 0%nat) (nth 1 p 0%nat) xs)) (sublists 2 (seq 0 (length xs))) =
  (1 - 4 * mu * (1 - mu) / (INR (length xs) - 1)) * dispersion xs.
Proof.
  intros H2. unfold mean_of. rewrite pairs_number by auto.
  rewrite (total_ext _ (fun p => 1 * dispersion xs + (- (2 * mu * (1 - mu))) * ((fun x y => (x - y) * (x - y)) (nth (nth 0 p 0%nat) xs 0) (nth (nth 1 p 0%nat) xs 0)))).
  2:{ intros p Hp. apply pair_in_seq in Hp as (i & j & -> & Hi & Hj). cbn [nth]. rewrite moved_dispersion by lia. ring. }
  rewrite (total_lin (fun _ => dispersion xs) (fun p => (fun x y => (x - y) * (x - y)) (nth (nth 0 p 0%nat) xs 0) (nth (nth 1 p 0%nat) xs 0))).
  rewrite total_const, pairs_number by auto. rewrite (pairs_index (fun x y => (x - y) * (x - y))), pairs_squares.
  rewrite dispersion_eq by lia. assert (1 < INR (length xs)) by (apply (lt_INR 1); lia). field. lra.
Qed.
Lemma mean_deviation mu xs k : (2 <= length xs)%nat -> (k < length xs)%nat ->
  mean_of (fun p => nth k (moved mu (nth 0 p 0%nat) (nth 1 p 0%nat) xs) 0 - average (moved mu (nth 0 p 0%nat) (nth 1 p 0%nat) xs)) (sublists 2 (seq 0 (length xs))) =
  (1 - 2 * mu / (INR (length xs) - 1)) * (nth k xs 0 - average xs).
Proof.
  intros H2 Hk. unfold mean_of. rewrite pairs_number by auto. set (h := fun j => - mu * (nth k xs 0 - nth j xs 0)).
  rewrite (total_ext _ (fun p => 1 * (nth k xs 0 - average xs) + 1 * (if (nth 0 p 0 =? k)%nat then h (nth 1 p 0%nat) else if (nth 1 p 0 =? k)%nat then h (nth 0 p 0%nat) else 0))).
  2:{ intros p Hp. apply pair_in_seq in Hp as (i & j & -> & Hi & Hj). cbn [nth]. rewrite moved_nth, moved_average by lia. unfold h.
      destruct (i =? k)%nat; [ring|]. destruct (j =? k)%nat; ring. }
  rewrite (total_lin (fun _ => nth k xs 0 - average xs)). rewrite total_const, pairs_number by auto.
  rewrite pairs_with by apply seq_NoDup. destruct (in_dec Nat.eq_dec k (seq 0 (length xs))) as [_|H]; [|exfalso; apply H; apply in_seq; lia].
  assert (E : total (fun j => if (j =? k)%nat then 0 else h j) (seq 0 (length xs)) = - mu * (INR (length xs) * nth k xs 0 - Rsum xs)).
  { rewrite (total_ext _ (fun j => (- mu * nth k xs 0) * 1 + mu * nth j xs 0)).
    - rewrite (total_lin (fun _ => 1)), total_const, seq_length. replace (total (fun j => nth j xs 0) (seq 0 (length xs))) with (Rsum xs); [ring|].
      rewrite total_Rsum. now rewrite nth_seq_R.
    - intros j _. unfold h. destruct (Nat.eqb_spec j k) as [->|]; ring. }
  rewrite E. unfold average. rewrite total_Rsum, map_id. assert (1 < INR (length xs)) by (apply (lt_INR 1); lia). field. lra.
Qed.
