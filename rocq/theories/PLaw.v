(** Laws of programs that draw from the tape: composition, integers, selection sampling. *)
From Verif Require Import Base BaseFacts Arith64 MRandom SRandom RFacts SProb SProb2 PProb PProb2 TProb PProb10 SLaw.
From Coq Require Import Reals Lra Lia Sorting.Sorted.
From Coquelicot Require Import Coquelicot.
Local Notation C := Binomial.C.
Local Open Scope R_scope.

Lemma variate_range tape : 0 <= fst (variate tape) < 1.
Proof.
  unfold variate. destruct tape as [|u t]; cbn [fst]; [lra|].
  destruct (Rle_dec 0 u); [destruct (Rlt_dec u 1)|]; lra.
Qed.
Lemma variate_in u t : 0 < u < 1 -> variate (u :: t) = (u, t).
Proof. intros H. unfold variate. destruct (Rle_dec 0 u); [destruct (Rlt_dec u 1)|]; try reflexivity; lra. Qed.

Lemma int_part_bounds x : IZR (Int_part x) <= x < IZR (Int_part x) + 1.
Proof. pose proof (base_Int_part x). lra. Qed.
Lemma int_part_unique x z : IZR z <= x < IZR z + 1 -> Int_part x = z.
Proof.
  intros H. pose proof (int_part_bounds x). assert (A : IZR z < IZR (Int_part x + 1)) by (rewrite plus_IZR; lra).
  assert (B : IZR (Int_part x) < IZR (z + 1)) by (rewrite plus_IZR; lra).
  apply lt_IZR in A. apply lt_IZR in B. lia.
Qed.

Lemma uni_int_ok : int_ok uni_rng.
Proof.
  intros lo hi s Hle. cbn [uni_rng r_int]. pose proof (variate_range s) as Hu. destruct (variate s) as [u t]. cbn [fst] in *.
  assert (Hc : 0 < IZR (hi - lo + 1)) by (apply IZR_lt; lia).
  pose proof (int_part_bounds (u * IZR (hi - lo + 1))) as B.
  assert (A : -1 < IZR (Int_part (u * IZR (hi - lo + 1)))) by nra.
  assert (D : IZR (Int_part (u * IZR (hi - lo + 1))) < IZR (hi - lo + 1)) by nra.
  apply (lt_IZR (-1)) in A. apply lt_IZR in D. lia.
Qed.
Lemma uni_real_ok : real_ok uni_rng.
Proof.
  intros lo hi s Hlt. cbn [RA flt fle uni_rng r_real F] in *. pose proof (variate_range s) as Hu. destruct (variate s) as [u t]. cbn [fst] in *.
  destruct (Rltb_spec lo hi) as [H|]; [|discriminate]. split.
  - destruct (Rleb_spec lo (lo + u * (hi - lo))); auto. nra.
  - destruct (Rltb_spec (lo + u * (hi - lo)) hi); auto. nra.
Qed.
Lemma selection_ok N : forall m i s, (m <= N)%nat ->
  let ps := fst (selection N m i s) in
  length ps = m /\ StronglySorted lt ps /\ List.Forall (fun p => (i <= p < i + N)%nat) ps.
Proof.
  induction N as [|N IH]; intros m i s Hm.
  - assert (m = 0)%nat by lia. subst. cbn. repeat split; constructor.
  - destruct m as [|m]; [cbn; repeat split; constructor|]. cbn [selection].
    pose proof (variate_range s) as Hu. destruct (variate s) as [u t]. cbn [fst] in Hu.
    destruct (Rlt_dec (u * INR (S N)) (INR (S m))) as [Hc|Hc].
    + specialize (IH m (S i) t ltac:(lia)). destruct (selection N m (S i) t) as [l t']. cbn [fst] in *.
      destruct IH as (A & B & D). split; [cbn; lia|]. split.
      * constructor; auto. revert D. apply Forall_impl. intros p Hp. lia.
      * constructor; [lia|]. revert D. apply Forall_impl. intros p Hp. lia.
    + assert (HmN : (S m <= N)%nat).
      { destruct (Nat.eq_dec m N) as [->|]; [|lia]. exfalso. apply Hc. pose proof (lt_0_INR (S N) ltac:(lia)). nra. }
      destruct (IH (S m) (S i) t HmN) as (A & B & D). split; auto. split; auto. revert D. apply Forall_impl. intros p Hp. lia.
Qed.
Lemma uni_sample_ok : sample_ok uni_rng.
Proof.
  intros pop k s. cbn [uni_rng r_sample]. destruct (selection_ok pop (Nat.min k pop) 0 s ltac:(lia)) as (A & B & D).
  split; auto. split; auto. revert D. apply Forall_impl. intros p Hp. lia.
Qed.

(** ** Laws *)
(** [law n P S E]: the program [P] reads at most [n] variates; it yields results in [S], and the
    expectation of a quantity [v] of the result is [E v] (whatever is computed afterwards from fresh
    variates with expectation [v]). *)
Definition law {X : Type} (n : nat) (P : list R -> res (X * list R)) (S : X -> Prop) (E : (X -> R) -> R) : Prop :=
  forall (K : X -> list R -> R) (v : X -> R) M,
    (forall x, S x -> forall M', (M <= M')%nat -> expects M' (K x) (v x)) ->
    forall M', (n + M <= M')%nat -> expects M' (fun us => continue K (P us)) (E v).

Lemma law_ext X n (P Q : list R -> res (X * list R)) S E : law n P S E -> (forall us, Q us = P us) -> law n Q S E.
Proof. intros H HE K v M HK M' HM. apply (expects_ext _ _ (fun us => continue K (P us))); [intros us _ _; now rewrite HE|]. now apply (H K v M). Qed.
Lemma law_weaken X n (P : list R -> res (X * list R)) (S S' : X -> Prop) E : law n P S E -> (forall x, S x -> S' x) -> law n P S' E.
Proof. intros H HS K v M HK. apply (H K v M). auto. Qed.
Lemma law_value X n (P : list R -> res (X * list R)) (S : X -> Prop) E E' : law n P S E -> (forall v, E v = E' v) -> law n P S E'.
Proof. intros H HE K v M HK M' HM. rewrite <- HE. now apply (H K v M). Qed.
Lemma law_ret X n (x : X) (S : X -> Prop) P : S x -> (forall us, P us = Ok (x, us)) -> law n P S (fun v => v x).
Proof. intros HS HP K v M HK M' HM. apply (expects_ext _ _ (K x)); [intros us _ _; now rewrite HP|]. apply HK; auto. lia. Qed.
Lemma law_bind X Y n m (P : list R -> res (X * list R)) (Q : X -> list R -> res (Y * list R)) S S2 E E2 :
  law n P S E -> (forall x, S x -> law m (Q x) S2 (E2 x)) ->
  law (n + m) (fun us => bind (P us) (fun r => Q (fst r) (snd r))) S2 (fun v => E (fun x => E2 x v)).
Proof.
  intros HP HQ K v M HK M' HM.
  apply (expects_ext _ _ (fun us => continue (fun x t => continue K (Q x t)) (P us))).
  { intros us _ _. now destruct (P us) as [[x t]| | |]. }
  apply (HP (fun x t => continue K (Q x t)) (fun x => E2 x v) (m + M)%nat); [|lia].
  intros x Hx M1 HM1. now apply (HQ x Hx K v M).
Qed.
(** A quantity of the result. *)
Lemma law_expectation X n (P : list R -> res (X * list R)) S E f : law n P S E ->
  expectation (fun us => of_result f (P us)) (E f).
Proof.
  intros H. exists n. intros n' Hn. apply (expects_ext _ _ (fun us => continue (fun x _ => f x) (P us))).
  { intros us _ _. now destruct (P us) as [[x t]| | |]. }
  apply (H (fun x _ => f x) f 0%nat); [|lia]. intros x _ M' _. apply expects_const.
Qed.
(** Values outside the support do not matter. *)
Lemma law_on_support X n (P : list R -> res (X * list R)) (S : X -> Prop) E v w : law n P S E -> (forall x, S x -> v x = w x) -> E v = E w.
Proof.
  intros H HE. assert (A := H (fun x _ => w x) v 0%nat). assert (B := H (fun x _ => w x) w 0%nat).
  apply (expects_unique n (fun us => continue (fun (x : X) _ => w x) (P us))).
  - apply A; [|lia]. intros x Hx M' _. rewrite HE by auto. apply expects_const.
  - apply B; [|lia]. intros x _ M' _. apply expects_const.
Qed.

(** A coin. *)
Lemma law_coin X n (p : R) (P : list R -> res (X * list R)) S EA EB : 0 <= p <= 1 ->
  (forall u, 0 < u < 1 -> u < p -> law n (fun us => P (u :: us)) S EA) ->
  (forall u, 0 < u < 1 -> ~ u < p -> law n (fun us => P (u :: us)) S EB) ->
  law (Datatypes.S n) P S (fun v => p * EA v + (1 - p) * EB v).
Proof.
  intros Hp HA HB K v M HK M' HM. destruct M' as [|M']; [lia|].
  apply coin_expects; auto; intros u Hu Hup; [apply (HA u Hu Hup K v M)|apply (HB u Hu Hup K v M)]; auto; lia.
Qed.

(** Equal steps. *)
Lemma steps_int (w : nat -> R) (c : R) m : 0 < c ->
  is_RInt (fun u => w (Z.to_nat (Int_part (u * c)))) 0 (INR m / c) (total w (seq 0 m) / c).
Proof.
  intros Hc. induction m as [|m IH].
  - cbn [seq total fold_right INR]. replace (0 / c) with 0 by (field; lra). evar_last; [apply (is_RInt_point (V := R_NormedModule))|change (zero (G := R_AbelianGroup)) with 0; change (@zero R_NormedModule) with 0; field; lra].
  - replace (total w (seq 0 (Datatypes.S m)) / c) with (plus (total w (seq 0 m) / c) (w m / c)).
    + apply (is_RInt_Chasles (V := R_NormedModule) _ 0 (INR m / c) (INR (Datatypes.S m) / c)); [exact IH|].
      apply (is_RInt_ext (fun _ => w m)).
      * intros u Hu. rewrite S_INR in Hu. assert (Hle : INR m / c <= (INR m + 1) / c) by (apply Rmult_le_compat_r; [left; now apply Rinv_0_lt_compat|lra]).
        rewrite Rmin_left, Rmax_right in Hu by lra. f_equal. symmetry.
        replace (Int_part (u * c)) with (Z.of_nat m); [lia|]. symmetry. apply int_part_unique. rewrite <- INR_IZR_INZ.
        destruct Hu as [H1 H2]. split.
        -- apply Rmult_lt_compat_r with (r := c) in H1; auto. unfold Rdiv in H1. rewrite Rmult_assoc, Rinv_l in H1; lra.
        -- apply Rmult_lt_compat_r with (r := c) in H2; auto. unfold Rdiv in H2. rewrite Rmult_assoc, Rinv_l in H2; lra.
      * evar_last; [apply (is_RInt_const (V := R_NormedModule))|]. rewrite S_INR.
        change (scal ((INR m + 1) / c - INR m / c) (w m)) with (((INR m + 1) / c - INR m / c) * w m). field. lra.
    + rewrite seq_S. change (plus (total w (seq 0 m) / c) (w m / c)) with (total w (seq 0 m) / c + w m / c).
      assert (A : total w (seq 0 m ++ ((0 + m)%nat :: nil)) = total w (seq 0 m) + w m).
      { generalize (seq 0 m) as l. intros l. unfold total. induction l as [|x l IHl]; cbn [app fold_right]; [cbn [Nat.add]; lra|]. rewrite IHl. lra. }
      rewrite A. match goal with |- ?x = ?y => change (@eq R x y) end. field. lra.
Qed.
(** A uniform integer. *)
Lemma law_int X n (lo hi : Z) (P : Z -> list R -> res (X * list R)) S (E : Z -> (X -> R) -> R) : (lo <= hi)%Z ->
  (forall z, (lo <= z <= hi)%Z -> law n (P z) S (E z)) ->
  law (Datatypes.S n) (fun us => let (z, t) := r_int uni_rng lo hi us in P z t) S
    (fun v => mean_of (fun i => E (lo + Z.of_nat i)%Z v) (seq 0 (Z.to_nat (hi - lo + 1)))).
Proof.
  intros Hle HP K v M HK M' HM. destruct M' as [|M']; [lia|].
  set (N := Z.to_nat (hi - lo + 1)). assert (HN : IZR (hi - lo + 1) = INR N) by (unfold N; rewrite INR_IZR_INZ; f_equal; lia).
  assert (H0 : 0 < INR N) by (apply lt_0_INR; unfold N; lia).
  exists (fun u => (fun i => E (lo + Z.of_nat i)%Z v) (Z.to_nat (Int_part (u * INR N)))), nil. split.
  - intros u Hu _. cbn [uni_rng r_int].
    apply (expects_ext _ _ (fun us => continue K (P (lo + Int_part (u * IZR (hi - lo + 1)))%Z us))).
    { intros us _ _. now rewrite variate_in by auto. }
    rewrite HN. pose proof (int_part_bounds (u * INR N)) as B.
    assert (A1 : -1 < IZR (Int_part (u * INR N))) by nra. assert (A2 : IZR (Int_part (u * INR N)) < IZR (hi - lo + 1)) by (rewrite HN; nra).
    apply (lt_IZR (-1)) in A1. apply lt_IZR in A2.
    replace (lo + Z.of_nat (Z.to_nat (Int_part (u * INR N))))%Z with (lo + Int_part (u * INR N))%Z by lia.
    apply (HP (lo + Int_part (u * INR N))%Z ltac:(lia) K v M); auto. lia.
  - pose proof (steps_int (fun i => E (lo + Z.of_nat i)%Z v) (INR N) N H0) as G.
    replace (INR N / INR N) with 1 in G by (field; lra). unfold mean_of. rewrite seq_length. exact G.
Qed.

(** Selection sampling draws every sublist with the same probability. *)
Lemma C_first n k : (k <= n)%nat -> C (S n) (S k) = INR (S n) / INR (S k) * C n k.
Proof.
  intros H. unfold C. replace (S n - S k)%nat with (n - k)%nat by lia.
  change (fact (S n)) with (S n * fact n)%nat. change (fact (S k)) with (S k * fact k)%nat. rewrite !mult_INR.
  field. repeat split; try apply INR_fact_neq_0; now apply not_0_INR.
Qed.
Lemma C_other n k : (S k <= n)%nat -> C (S n) (S k) = INR (S n) / (INR (S n) - INR (S k)) * C n (S k).
Proof.
  intros H. unfold C. replace (S n - S k)%nat with (S (n - S k)) by lia.
  change (fact (S n)) with (S n * fact n)%nat. change (fact (S (n - S k))) with (S (n - S k) * fact (n - S k))%nat. rewrite !mult_INR.
  replace (INR (S (n - S k))) with (INR (S n) - INR (S k)) by (rewrite <- minus_INR by lia; f_equal; lia).
  field. assert (INR (S n) - INR (S k) <> 0). { rewrite <- minus_INR by lia. apply not_0_INR. lia. }
  repeat split; try apply INR_fact_neq_0; auto.
Qed.
Lemma C_0 n : C n 0 = 1.
Proof. unfold C. rewrite Nat.sub_0_r. change (INR (fact 0)) with 1. field. apply INR_fact_neq_0. Qed.
Lemma C_pos n k : 0 < C n k.
Proof. unfold C. apply Rdiv_lt_0_compat; [apply INR_fact_lt_0|apply Rmult_lt_0_compat; apply INR_fact_lt_0]. Qed.
Lemma total_app {A} (f : A -> R) l l' : total f (l ++ l') = total f l + total f l'.
Proof. unfold total. induction l as [|x l IH]; cbn [app fold_right]; [lra|]. rewrite IH. lra. Qed.
Lemma total_map {A B} (f : B -> R) (h : A -> B) l : total f (map h l) = total (fun x => f (h x)) l.
Proof. unfold total. induction l as [|x l IH]; cbn [map fold_right]; [lra|]. rewrite IH. lra. Qed.
Lemma sublists_long {A} k (l : list A) : (length l < k)%nat -> sublists k l = nil.
Proof. revert k. induction l as [|x l IH]; intros [|k] H; cbn [length] in H; try lia; cbn [sublists]; auto. rewrite !IH by lia. reflexivity. Qed.

Lemma law_selection N : forall m i, (m <= N)%nat ->
  law N (fun us => Ok (selection N m i us)) (fun l => In l (sublists m (seq i N)))
    (fun v => total v (sublists m (seq i N)) / C N m).
Proof.
  induction N as [|N IH]; intros m i Hm.
  - assert (m = 0)%nat by lia. subst. apply law_value with (fun v => v nil).
    + apply law_ret; [now left|reflexivity].
    + intros v. cbn [sublists seq]. unfold total. cbn [fold_right]. rewrite C_0. field.
  - destruct m as [|m].
    + apply law_value with (fun v => v nil).
      * apply law_ret; [now left|reflexivity].
      * intros v. cbn [sublists]. cbn [seq sublists]. unfold total. cbn [fold_right]. rewrite C_0. field.
    + set (p := INR (S m) / INR (S N)). assert (HN : 0 < INR (S N)) by (apply lt_0_INR; lia).
      assert (Hmn : INR (S m) <= INR (S N)) by (apply le_INR; lia). assert (Hm0 : 0 < INR (S m)) by (apply lt_0_INR; lia).
      assert (Hp : 0 <= p <= 1).
      { unfold p. split; [apply Rdiv_le_0_compat; lra|]. apply Rmult_le_reg_r with (INR (S N)); auto. unfold Rdiv. rewrite Rmult_assoc, Rinv_l; lra. }
      assert (Hcmp : forall u, u * INR (S N) < INR (S m) <-> u < p).
      { intros u. unfold p. split; intros H.
        - apply Rmult_lt_reg_r with (INR (S N)); auto. unfold Rdiv. rewrite Rmult_assoc, Rinv_l; lra.
        - apply Rmult_lt_compat_r with (r := INR (S N)) in H; auto. unfold Rdiv in H. rewrite Rmult_assoc, Rinv_l in H; lra. }
      apply law_value with (fun v => p * (total (fun l => v (i :: l)) (sublists m (seq (S i) N)) / C N m)
                               + (1 - p) * (total v (sublists (S m) (seq (S i) N)) / C N (S m))).
      * apply law_coin; auto.
        -- intros u Hu Hup.
           apply law_ext with (fun us => bind (Ok (selection N m (S i) us)) (fun r => Ok (i :: fst r, snd r))).
           2:{ intros us. cbn [selection]. rewrite variate_in by auto. destruct (Rlt_dec (u * INR (S N)) (INR (S m))) as [_|H]; [|exfalso; apply H; now apply Hcmp].
               cbn [bind]. now destruct (selection N m (S i) us). }
           apply law_weaken with (fun l => In l (sublists (S m) (seq i (S N)))); auto.
           replace N with (N + 0)%nat at 1 by lia.
           apply (law_bind _ _ N 0 (fun us => Ok (selection N m (S i) us)) (fun l us => Ok (i :: l, us)) (fun l => In l (sublists m (seq (S i) N)))
                    (fun l => In l (sublists (S m) (seq i (S N)))) (fun w => total w (sublists m (seq (S i) N)) / C N m) (fun l v => v (i :: l))); [apply IH; lia|].
           intros l Hl. apply law_ret; [|reflexivity]. cbn [seq sublists]. apply in_or_app. left. now apply in_map.
        -- intros u Hu Hup. assert (HmN : (S m <= N)%nat).
           { destruct (Nat.eq_dec m N) as [->|]; [|lia]. exfalso. apply Hup. unfold p. replace (INR (S N) / INR (S N)) with 1 by (field; lra). lra. }
           apply law_ext with (fun us => Ok (selection N (S m) (S i) us)).
           2:{ intros us. cbn [selection]. rewrite variate_in by auto. destruct (Rlt_dec (u * INR (S N)) (INR (S m))) as [H|_]; [exfalso; apply Hup; now apply Hcmp|reflexivity]. }
           apply law_weaken with (fun l => In l (sublists (S m) (seq (S i) N))); [now apply IH|].
           intros l Hl. cbn [seq sublists]. apply in_or_app. now right.
      * intros v. cbn [seq sublists]. rewrite total_app, total_map. rewrite C_first by lia. fold p.
        pose proof (C_pos N m) as HC.
        destruct (Nat.eq_dec m N) as [->|Hne].
        -- rewrite (sublists_long (S N)) by (rewrite seq_length; lia). change (total v nil) with 0. unfold p. pose proof (C_pos N (S N)). field. repeat split; lra.
        -- replace (total v (sublists (S m) (seq (S i) N)) / C N (S m)) with (total v (sublists (S m) (seq (S i) N)) * (INR (S m) / (INR (S N) - INR (S m))) / C N m).
           ++ assert (INR (S m) < INR (S N)) by (apply lt_INR; lia). unfold p. field. lra.
           ++ assert (E : INR (S N) / INR (S m) * C N m = INR (S N) / (INR (S N) - INR (S m)) * C N (S m)) by (rewrite <- C_first, <- C_other by lia; reflexivity).
              assert (INR (S m) < INR (S N)) by (apply lt_INR; lia). pose proof (C_pos N (S m)).
              assert (E' : C N m = INR (S m) / (INR (S N) - INR (S m)) * C N (S m)).
              { apply Rmult_eq_reg_l with (INR (S N) / INR (S m)). - rewrite E. field. lra. - apply Rgt_not_eq. apply Rdiv_lt_0_compat; lra. }
              rewrite E'. field. lra.
Qed.
