(** Proofs about the square lattice. *)
From Verif Require Import Base BaseFacts MNetwork SNetwork PNetwork2 MNetGen.

Section L.
Context {A W : Type} (d : A).
Notation net := (network A W).
Variable L : nat.
Hypothesis HL : (Z.of_nat L < 2147483648)%Z.

Lemma int_edge : to_int32 (Z.of_nat L) = Z.of_nat L.
Proof. apply to_int32_small. lia. Qed.

Lemma wrap_mod k : (1 <= L)%nat -> (-1 <= k <= Z.of_nat L)%Z ->
  wrap_edge_index (Z.of_nat L) k = (k mod Z.of_nat L)%Z.
Proof.
  intros H1 Hk. unfold wrap_edge_index.
  destruct (Z.leb_spec (Z.of_nat L) k).
  - replace k with (Z.of_nat L) by lia. rewrite Z_mod_same_full. lia.
  - destruct (Z.ltb_spec k 0).
    + replace k with (-1)%Z by lia. replace (-1)%Z with (Z.of_nat L - 1 + (-1) * Z.of_nat L)%Z at 2 by lia.
      rewrite Z_mod_plus_full. rewrite Z.mod_small; lia.
    + rewrite Z.mod_small; lia.
Qed.

Lemma linear_eq i j : (1 <= L)%nat -> (-1 <= i <= Z.of_nat L)%Z -> (-1 <= j <= Z.of_nat L)%Z ->
  linear_index L i j = Z.to_nat (i mod Z.of_nat L) + L * Z.to_nat (j mod Z.of_nat L).
Proof.
  intros H1 Hi Hj. unfold linear_index. rewrite int_edge, !wrap_mod by auto.
  pose proof (Z.mod_pos_bound i (Z.of_nat L) ltac:(lia)).
  pose proof (Z.mod_pos_bound j (Z.of_nat L) ltac:(lia)).
  assert (Z.of_nat L * (j mod Z.of_nat L) <= Z.of_nat L * (Z.of_nat L - 1))%Z by (apply Z.mul_le_mono_nonneg_l; lia).
  assert (Z.of_nat L * (Z.of_nat L - 1) <= 2147483648 * 2147483648)%Z by (apply Z.mul_le_mono_nonneg; lia).
  rewrite (to_size_t_small (i mod _)), (to_size_t_small (j mod _)) by lia.
  rewrite to_size_t_small by lia. rewrite Z2Nat.inj_add by lia. rewrite Z2Nat.inj_mul by lia.
  now rewrite Nat2Z.id.
Qed.

Definition pred_mod (x : nat) : nat := (x + L - 1) mod L.
Definition succ_mod (x : nat) : nat := (x + 1) mod L.

Lemma zmod_id x : x < L -> Z.to_nat (Z.of_nat x mod Z.of_nat L) = x.
Proof. intros H. rewrite Z.mod_small by lia. apply Nat2Z.id. Qed.
Lemma zmod_succ x : x < L -> Z.to_nat ((Z.of_nat x + 1) mod Z.of_nat L) = succ_mod x.
Proof.
  intros H. unfold succ_mod. replace (Z.of_nat x + 1)%Z with (Z.of_nat (x + 1)) by lia.
  rewrite <- Nat2Z.inj_mod by lia. apply Nat2Z.id.
Qed.
Lemma zmod_pred x : x < L -> Z.to_nat ((Z.of_nat x - 1) mod Z.of_nat L) = pred_mod x.
Proof.
  intros H. unfold pred_mod. replace (Z.of_nat x - 1)%Z with (Z.of_nat (x + L - 1) + (-1) * Z.of_nat L)%Z by lia.
  rewrite Z_mod_plus_full. rewrite <- Nat2Z.inj_mod by lia. apply Nat2Z.id.
Qed.

Lemma pred_mod_eq x : x < L -> pred_mod x = if x =? 0 then L - 1 else x - 1.
Proof.
  intros H. unfold pred_mod. destruct (Nat.eqb_spec x 0) as [->|Hx].
  - cbn [Nat.add]. apply Nat.mod_small. lia.
  - replace (x + L - 1) with (x - 1 + 1 * L) by lia. rewrite Nat.mod_add by lia. apply Nat.mod_small. lia.
Qed.
Lemma succ_mod_eq x : x < L -> succ_mod x = if x =? L - 1 then 0 else x + 1.
Proof.
  intros H. unfold succ_mod. destruct (Nat.eqb_spec x (L - 1)) as [->|Hx].
  - replace (L - 1 + 1) with L by lia. apply Nat.mod_same. lia.
  - apply Nat.mod_small. lia.
Qed.

(** the four neighbours of the site (x, y) *)
Definition four (x y : nat) : list nat :=
  [ pred_mod x + L * y; succ_mod x + L * y; x + L * pred_mod y; x + L * succ_mod y ].

Lemma index_inj x y x' y' : x < L -> x' < L -> x + L * y = x' + L * y' -> x = x' /\ y = y'.
Proof. intros H1 H2 E. assert (y = y') by nia. subst. lia. Qed.

Lemma index_lt x y : x < L -> y < L -> x + L * y < L * L.
Proof. intros. nia. Qed.

Definition site_ok (w : W) (g : net) (x y : nat) : Prop :=
  nth_error (neigh g) (x + L * y) = Some (four x y) /\
  nth_error (wts g) (x + L * y) = Some (repeat w 4).

Lemma lattice_ok (w : W) :
  okp (generate_square_lattice d L w) (fun g =>
    agents g = repeat d (L * L) /\ length (neigh g) = L * L /\ length (wts g) = L * L /\
    dir g = Incoming /\ forall x y, x < L -> y < L -> site_ok w g x y).
Proof.
  unfold generate_square_lattice. rewrite int_edge, Nat2Z.id.
  assert (En : Z.to_nat (to_size_t (Z.of_nat L * Z.of_nat L)) = L * L).
  { assert (Z.of_nat L * Z.of_nat L <= 2147483648 * 2147483648)%Z by (apply Z.mul_le_mono_nonneg; lia).
    rewrite to_size_t_small by lia. rewrite <- Nat2Z.inj_mul. apply Nat2Z.id. }
  rewrite En.
  set (base := fun g : net => agents g = repeat d (L * L) /\ length (neigh g) = L * L /\
       length (wts g) = L * L /\ dir g = Incoming).
  eapply okp_impl.
  { apply (for_n_inv _ (fun i g => base g /\ forall x y, x < i -> y < L -> site_ok w g x y)).
    - unfold base. cbn. rewrite !repeat_length. repeat split; auto; intros; lia.
    - intros i g Hi [Hb HI].
      eapply okp_impl.
      { apply (for_n_inv _ (fun j g => base g /\
            forall x y, (x < i /\ y < L) \/ (x = i /\ y < j) -> site_ok w g x y)).
        - split; auto. intros x y [[H1 H2]|[H1 H2]]; [auto|lia].
        - intros j g' Hj [(B1 & B2 & B3 & B4) HI'].
          rewrite !linear_eq by lia. rewrite !zmod_id, !zmod_pred, !zmod_succ by auto.
          fold (four i j). pose proof (index_lt i j Hi Hj) as Hlt.
          unfold set_neighbours_const. rewrite !vset_ok by lia. cbn [bind okp].
          split; [unfold base; cbn; rewrite !upd_length; auto|].
          intros x y Hxy. unfold site_ok. cbn [neigh wts].
          destruct (Nat.eq_dec (i + L * j) (x + L * y)) as [E|E].
          + apply index_inj in E as [<- <-]; [|lia|lia]. rewrite !nth_error_upd_eq by lia. auto.
          + rewrite !nth_error_upd_neq by auto. apply HI'. destruct Hxy as [H|[-> H]]; auto.
            right. split; auto. assert (y <> j) by congruence. lia. }
      intros g' [Hb' HI']. split; auto. intros x y Hx Hy. apply HI'. lia. }
  intros g [(B1 & B2 & B3 & B4) HI]. repeat split; auto; now apply HI.
Qed.

(** left/right and up/down are inverse to each other *)
Lemma pred_succ x : x < L -> pred_mod (succ_mod x) = x.
Proof.
  intros H. assert (succ_mod x < L) by (unfold succ_mod; apply Nat.mod_upper_bound; lia).
  rewrite pred_mod_eq by auto. rewrite succ_mod_eq by auto.
  destruct (Nat.eqb_spec x (L - 1)).
  - destruct (Nat.eqb_spec 0 0); lia.
  - destruct (Nat.eqb_spec (x + 1) 0); lia.
Qed.
Lemma succ_pred x : x < L -> succ_mod (pred_mod x) = x.
Proof.
  intros H. assert (pred_mod x < L) by (unfold pred_mod; apply Nat.mod_upper_bound; lia).
  rewrite succ_mod_eq by auto. rewrite pred_mod_eq by auto.
  destruct (Nat.eqb_spec x 0).
  - destruct (Nat.eqb_spec (L - 1) (L - 1)); lia.
  - destruct (Nat.eqb_spec (x - 1) (L - 1)); lia.
Qed.
Lemma pred_lt x : x < L -> pred_mod x < L.
Proof. intros. apply Nat.mod_upper_bound. lia. Qed.
Lemma succ_lt x : x < L -> succ_mod x < L.
Proof. intros. apply Nat.mod_upper_bound. lia. Qed.

Definition b2n (b : bool) : nat := if b then 1 else 0.

Lemma count_cons u v l : count_occ Nat.eq_dec (u :: l) v = b2n (u =? v) + count_occ Nat.eq_dec l v.
Proof. cbn. destruct (Nat.eq_dec u v) as [->|H]; [now rewrite Nat.eqb_refl|]. apply Nat.eqb_neq in H. now rewrite H. Qed.

Lemma eqb_iff a b c e : (a = b <-> c = e) -> (a =? b) = (c =? e).
Proof. intros H. destruct (Nat.eqb_spec a b), (Nat.eqb_spec c e); tauto. Qed.

Lemma four_symmetric x y x' y' : x < L -> y < L -> x' < L -> y' < L ->
  count_occ Nat.eq_dec (four x y) (x' + L * y') = count_occ Nat.eq_dec (four x' y') (x + L * y).
Proof.
  intros Hx Hy Hx' Hy'. unfold four. rewrite !count_cons. cbn [count_occ].
  assert (E1 : (pred_mod x + L * y =? x' + L * y') = (succ_mod x' + L * y' =? x + L * y)).
  { apply eqb_iff. pose proof (pred_lt x Hx). pose proof (succ_lt x' Hx'). split; intros E; apply index_inj in E as [E ->]; auto.
    - subst x'. now rewrite succ_pred. - subst x. now rewrite pred_succ. }
  assert (E2 : (succ_mod x + L * y =? x' + L * y') = (pred_mod x' + L * y' =? x + L * y)).
  { apply eqb_iff. pose proof (succ_lt x Hx). pose proof (pred_lt x' Hx'). split; intros E; apply index_inj in E as [E ->]; auto.
    - subst x'. now rewrite pred_succ. - subst x. now rewrite succ_pred. }
  assert (E3 : (x + L * pred_mod y =? x' + L * y') = (x' + L * succ_mod y' =? x + L * y)).
  { apply eqb_iff. split; intros E; apply index_inj in E as [-> E]; auto.
    - subst y'. now rewrite succ_pred. - subst y. now rewrite pred_succ. }
  assert (E4 : (x + L * succ_mod y =? x' + L * y') = (x' + L * pred_mod y' =? x + L * y)).
  { apply eqb_iff. split; intros E; apply index_inj in E as [-> E]; auto.
    - subst y'. now rewrite pred_succ. - subst y. now rewrite succ_pred. }
  rewrite E1, E2, E3, E4. lia.
Qed.

Lemma four_lt x y v : x < L -> y < L -> In v (four x y) -> v < L * L.
Proof.
  intros Hx Hy [<-|[<-|[<-|[<-|[]]]]]; apply index_lt; auto using pred_lt, succ_lt.
Qed.

Lemma four_distinct x y : 3 <= L -> x < L -> y < L -> NoDup ((x + L * y) :: four x y).
Proof.
  intros H3 Hx Hy.
  assert (P : forall z, z < L -> pred_mod z <> z /\ succ_mod z <> z /\ pred_mod z <> succ_mod z).
  { intros z Hz. rewrite pred_mod_eq, succ_mod_eq by auto.
    destruct (Nat.eqb_spec z 0), (Nat.eqb_spec z (L - 1)); lia. }
  destruct (P x Hx) as (px1 & px2 & px3). destruct (P y Hy) as (py1 & py2 & py3).
  pose proof (pred_lt x Hx). pose proof (succ_lt x Hx).
  repeat constructor; cbn; intros H1;
    repeat match goal with H : _ \/ _ |- _ => destruct H end;
    try contradiction; try match goal with H : _ + L * _ = _ + L * _ |- _ => apply index_inj in H as [? ?]; auto; congruence end.
Qed.

End L.
