(** Proofs about the vector Deffuant model. *)
From Verif Require Import Base BaseFacts Arith64 MRandom SRandom MNetwork SNetwork MAgents MDeGroot MDeffuant SDeffuant PDeffuant.

(** ** Hamming distance *)
Lemma differing_cons x y u v : differing (x :: u) (y :: v) = (if (x =? y)%Z then 0 else 1) + differing u v.
Proof. unfold differing. cbn. destruct (x =? y)%Z; reflexivity. Qed.
Lemma differing_le u v : differing u v <= length u.
Proof.
  revert v. induction u as [|x u IH]; intros [|y v]; cbn [length]; try (cbn; lia). rewrite differing_cons. specialize (IH v). destruct (x =? y)%Z; lia.
Qed.
Lemma differing_zero u : forall v, length u = length v -> (differing u v = 0 <-> u = v).
Proof.
  induction u as [|x u IH]; intros [|y v] H; try discriminate; [now cbn|]. rewrite differing_cons. cbn in H. specialize (IH v ltac:(lia)).
  destruct (Z.eqb_spec x y) as [->|N].
  - cbn [Nat.add]. rewrite IH. split; congruence.
  - split; [discriminate|]. intros E. congruence.
Qed.
Lemma differing_sym u : forall v, differing u v = differing v u.
Proof. induction u as [|x u IH]; intros [|y v]; auto. rewrite !differing_cons, IH, Z.eqb_sym. reflexivity. Qed.
Lemma differing_triangle u : forall v w, length u = length v -> length v = length w ->
  differing u w <= differing u v + differing v w.
Proof.
  induction u as [|x u IH]; intros [|y v] [|z w] H1 H2; try discriminate; [cbn; lia|]. rewrite !differing_cons.
  cbn in H1, H2. specialize (IH v w ltac:(lia) ltac:(lia)).
  destruct (Z.eqb_spec x y), (Z.eqb_spec y z), (Z.eqb_spec x z); try lia.
Qed.

Lemma hamming_ok u v : length u = length v -> (Z.of_nat (differing u v) < 2147483648)%Z ->
  hamming_distance u v = Ok (Z.of_nat (differing u v)).
Proof.
  intros HL HB. unfold hamming_distance. rewrite HL, Nat.eqb_refl. cbn [negb].
  match goal with |- ?m = _ => assert (G : okp m (fun r => r = Z.of_nat (differing (firstn (length v) u) (firstn (length v) v)))) end.
  { apply (for_n_inv _ (fun k r => r = Z.of_nat (differing (firstn k u) (firstn k v)))); auto.
    intros k r Hk ->.
    assert (E : forall k u v, k < length u -> k < length v ->
      differing (firstn (S k) u) (firstn (S k) v) = differing (firstn k u) (firstn k v) + (if (nth k u 0 =? nth k v 0)%Z then 0 else 1)).
    { clear. induction k as [|k IH]; intros [|x u] [|y v] H1 H2; cbn [length] in *; try lia; cbn [firstn nth].
      - rewrite differing_cons. cbn. lia.
      - rewrite !differing_cons. specialize (IH u v ltac:(lia) ltac:(lia)). cbn [firstn] in IH. rewrite IH. lia. }
    assert (M : forall u v k, differing (firstn k u) (firstn k v) <= differing u v).
    { clear. induction u as [|x u IH]; intros [|y v] [|k]; cbn [firstn]; try (cbn; lia). rewrite !differing_cons. specialize (IH v k). lia. }
    rewrite !(vget_lt _ _ _ 0%Z) by lia. cbn [bind]. specialize (E k u v ltac:(lia) ltac:(lia)).
    pose proof (M u v (S k)) as MS. rewrite E in MS.
    destruct (nth k u 0 =? nth k v 0)%Z eqn:Q; cbn [negb].
    - cbn [okp]. rewrite E. f_equal. lia.
    - destruct (Z.ltb_spec (Z.of_nat (differing (firstn k u) (firstn k v))) 2147483647) as [H|H]; [|lia]. cbn [okp]. rewrite E. lia. }
  apply okp_ex in G as (r & -> & ->). rewrite firstn_all2 by lia. now rewrite firstn_all.
Qed.

Lemma hamming_throw u v : length u <> length v -> hamming_distance u v = Throw ExRuntime.
Proof. intros H. unfold hamming_distance. apply Nat.eqb_neq in H. now rewrite H. Qed.

(** ** Runs of any update rule *)
Section Generic.
Context {a : Arith} (g : Rng a) {A : Type}.
Hypothesis Hs : sample_ok g.
Hypothesis Hi : int_ok g.

Lemma encounters_inv (update : rule g (A:=A)) use n (Inv : list A -> Prop) : forall (net : network A (F a)) s i0,
  0 < n_agents net -> can_select use net -> Inv (agents net) ->
  (forall i j l s, valid_pair use net (i, j) -> length l = n_agents net -> Inv l ->
     exists l' s', update i j l s = Ok (l', s') /\ length l' = length l /\ Inv l') ->
  exists l' s', for_from i0 n (fun _ st => let '(network, s) := st in encounter g update use network s) (net, s)
      = Ok (with_agents net l', s') /\ length l' = n_agents net /\ Inv l'.
Proof.
  induction n as [|n IH]; intros net s i0 Hn Hc H0 HU.
  - exists (agents net), s. cbn [for_from]. split; [now destruct net|]. auto.
  - cbn [for_from]. unfold encounter at 1. destruct (select_ok g Hs Hi use net s Hn Hc) as (i & j & s1 & E & V). rewrite E. cbn [bind vget nth_error].
    destruct (HU i j (agents net) s1 V eq_refl H0) as (l1 & s2 & E1 & HL & H1). rewrite E1. cbn [bind].
    assert (HL' : length l1 = n_agents net) by exact HL.
    destruct (IH (with_agents net l1) s2 (S i0)) as (l' & s' & E2 & HL2 & H2).
    + unfold n_agents in *. cbn [agents with_agents]. lia.
    + now apply can_select_ext.
    + exact H1.
    + intros i' j' l s0 V' HLl Hl. apply HU; auto; [now apply (valid_ext use net l1)|]. unfold n_agents in *. cbn [agents with_agents] in HLl. lia.
    + exists l', s'. split; [exact E2|]. split; auto. unfold n_agents in *. cbn [agents with_agents] in HL2. lia.
Qed.

Lemma iteration_inv (update : rule g (A:=A)) (m : deffuant A) s (Inv : list A -> Prop) :
  can_select (use_network m) (df_net m) -> Inv (agents (df_net m)) ->
  (forall i j l s, valid_pair (use_network m) (df_net m) (i, j) -> length l = n_agents (df_net m) -> Inv l ->
     exists l' s', update i j l s = Ok (l', s') /\ length l' = length l /\ Inv l') ->
  exists l' s', deffuant_iteration g update m s = Ok (mkDeffuant (base_iteration (df_base m)) (homophily_threshold m) (mu m) (use_network m)
      (with_agents (df_net m) l'), s') /\ length l' = n_agents (df_net m) /\ Inv l'.
Proof.
  intros Hc H0 HU. unfold deffuant_iteration. destruct (Nat.eq_dec (n_agents (df_net m)) 0) as [E0|Hn].
  - rewrite E0. cbn [for_n for_from bind]. exists (agents (df_net m)), s. split; [now destruct (df_net m)|]. auto.
  - destruct (encounters_inv update (use_network m) (n_agents (df_net m)) Inv (df_net m) s 0 ltac:(lia) Hc H0 HU) as (l' & s' & E & R).
    exists l', s'. unfold for_n. rewrite E. cbn [bind]. auto.
Qed.
End Generic.

(** ** The vector update rule *)
Section Vector.
Context {a : Arith} (g : Rng a).

(** The loop of the update rule: afterwards both vectors agree, componentwise taken from one of them. *)
Lemma vector_loop_ok (m0 : F a) i1 i2 (l : list vector_agent) s u v : i1 <> i2 ->
  nth_error l i1 = Some (mkVector u) -> nth_error l i2 = Some (mkVector v) -> length u = length v ->
  exists l' s' w,
    for_n (length u) (fun k ls =>
      let '(l, s) := ls in
      o1 <- component l i1 k ;;
      o2 <- component l i2 k ;;
      if negb (o1 =? o2)%Z then
        let (idx_selected, s) := r_int g 0 1 s in
        if (idx_selected =? 0)%Z then
          let (x, s) := r_real g (f0 a) (f1 a) s in
          if flt a m0 x then
            l <- set_component l i1 k o2 ;; Ok (l, s)
          else
            l <- set_component l i2 k o1 ;; Ok (l, s)
        else
          l <- set_component l i2 k o1 ;; Ok (l, s)
      else Ok (l, s)) (l, s) = Ok (l', s') /\
    length l' = length l /\ (forall k, k <> i1 -> k <> i2 -> nth_error l' k = nth_error l k) /\
    nth_error l' i1 = Some (mkVector w) /\ nth_error l' i2 = Some (mkVector w) /\ length w = length u /\
    (forall k, k < length u -> nth k w 0%Z = nth k u 0%Z \/ nth k w 0%Z = nth k v 0%Z) /\
    ((forall s, flt a m0 (fst (r_real g (f0 a) (f1 a) s)) = false) -> w = u).
Proof.
  intros Hne E1 E2 HL.
  match goal with |- exists l' s' w, for_n ?n ?b ?st = _ /\ _ => assert (G : okp (for_n n b st) (fun ls => exists u' v',
    length (fst ls) = length l /\ (forall k, k <> i1 -> k <> i2 -> nth_error (fst ls) k = nth_error l k) /\
    nth_error (fst ls) i1 = Some (mkVector u') /\ nth_error (fst ls) i2 = Some (mkVector v') /\
    length u' = length u /\ length v' = length u /\
    (forall k, k < n -> nth k u' 0%Z = nth k v' 0%Z /\ (nth k u' 0%Z = nth k u 0%Z \/ nth k u' 0%Z = nth k v 0%Z)) /\
    (forall k, n <= k -> nth k u' 0%Z = nth k u 0%Z /\ nth k v' 0%Z = nth k v 0%Z) /\
    ((forall s, flt a m0 (fst (r_real g (f0 a) (f1 a) s)) = false) -> u' = u))) end.
  { match goal with |- okp (for_n ?n ?b ?st) _ => apply (for_n_inv _ (fun c ls => exists u' v',
    length (fst ls) = length l /\ (forall k, k <> i1 -> k <> i2 -> nth_error (fst ls) k = nth_error l k) /\
    nth_error (fst ls) i1 = Some (mkVector u') /\ nth_error (fst ls) i2 = Some (mkVector v') /\
    length u' = length u /\ length v' = length u /\
    (forall k, k < c -> nth k u' 0%Z = nth k v' 0%Z /\ (nth k u' 0%Z = nth k u 0%Z \/ nth k u' 0%Z = nth k v 0%Z)) /\
    (forall k, c <= k -> nth k u' 0%Z = nth k u 0%Z /\ nth k v' 0%Z = nth k v 0%Z) /\
    ((forall s, flt a m0 (fst (r_real g (f0 a) (f1 a) s)) = false) -> u' = u))) end.
    - exists u, v. cbn [fst]. repeat split; auto; intros; lia.
    - intros k [l1 s1] Hk (u' & v' & A1 & A2 & A3 & A4 & A5 & A6 & A7 & A8 & A9). cbn [fst] in *.
      assert (L1 : i1 < length l1) by (apply nth_error_Some; congruence).
      assert (L2 : i2 < length l1) by (apply nth_error_Some; congruence).
      unfold component. rewrite (proj2 (vget_ok _ l1 i1 _) A3), (proj2 (vget_ok _ l1 i2 _) A4). cbn [bind v_opinion].
      rewrite !(vget_lt _ _ _ 0%Z) by lia. cbn [bind].
      destruct (A8 k ltac:(lia)) as [B1 B2].
      set (keep1 := fun (l' : list vector_agent) (uu vv : list Z) => length l' = length l /\ (forall k, k <> i1 -> k <> i2 -> nth_error l' k = nth_error l k) /\
         nth_error l' i1 = Some (mkVector uu) /\ nth_error l' i2 = Some (mkVector vv)).
      assert (Copy2to1 : exists l', set_component l1 i1 k (nth k v' 0%Z) = Ok l' /\ keep1 l' (upd u' k (nth k v' 0%Z)) v').
      { unfold set_component. rewrite (proj2 (vget_ok _ l1 i1 _) A3). cbn [bind v_opinion]. rewrite vset_ok by lia. cbn [bind]. rewrite vset_ok by lia.
        eexists. split; [reflexivity|]. unfold keep1. rewrite upd_length. split; auto. split; [|split].
        - intros q Q1 Q2. rewrite nth_error_upd_neq by auto. auto.
        - now rewrite nth_error_upd_eq by lia.
        - now rewrite nth_error_upd_neq by auto. }
      assert (Copy1to2 : exists l', set_component l1 i2 k (nth k u' 0%Z) = Ok l' /\ keep1 l' u' (upd v' k (nth k u' 0%Z))).
      { unfold set_component. rewrite (proj2 (vget_ok _ l1 i2 _) A4). cbn [bind v_opinion]. rewrite vset_ok by lia. cbn [bind]. rewrite vset_ok by lia.
        eexists. split; [reflexivity|]. unfold keep1. rewrite upd_length. split; auto. split; [|split].
        - intros q Q1 Q2. rewrite nth_error_upd_neq by auto. auto.
        - now rewrite nth_error_upd_neq by auto.
        - now rewrite nth_error_upd_eq by lia. }
      assert (R2 : forall s' : rst g, okp (l' <- set_component l1 i2 k (nth k u' 0%Z) ;; Ok (l', s'))
        (fun ls => exists u'0 v'0, length (fst ls) = length l /\ (forall k0, k0 <> i1 -> k0 <> i2 -> nth_error (fst ls) k0 = nth_error l k0) /\
          nth_error (fst ls) i1 = Some (mkVector u'0) /\ nth_error (fst ls) i2 = Some (mkVector v'0) /\
          length u'0 = length u /\ length v'0 = length u /\
          (forall k0, k0 < S k -> nth k0 u'0 0%Z = nth k0 v'0 0%Z /\ (nth k0 u'0 0%Z = nth k0 u 0%Z \/ nth k0 u'0 0%Z = nth k0 v 0%Z)) /\
          (forall k0, S k <= k0 -> nth k0 u'0 0%Z = nth k0 u 0%Z /\ nth k0 v'0 0%Z = nth k0 v 0%Z) /\
          ((forall s, flt a m0 (fst (r_real g (f0 a) (f1 a) s)) = false) -> u'0 = u))).
      { intros s'. destruct Copy1to2 as (l' & -> & C1 & C2 & C3 & C4). cbn [bind okp fst]. exists u', (upd v' k (nth k u' 0%Z)).
        rewrite upd_length. do 6 (split; auto). split; [|split; auto].
        - intros q Hq. destruct (Nat.eq_dec q k) as [->|Hqk].
          + rewrite nth_upd_eq by lia. auto.
          + rewrite nth_upd_neq by auto. apply A7. lia.
        - intros q Hq. rewrite nth_upd_neq by lia. apply A8. lia. }
      destruct (nth k u' 0%Z =? nth k v' 0%Z)%Z eqn:Q; cbn [negb].
      + apply Z.eqb_eq in Q. cbn [okp fst]. exists u', v'. do 6 (split; auto). split; [|split; auto].
        * intros q Hq. destruct (Nat.eq_dec q k) as [->|Hqk]; [auto|]. apply A7. lia.
        * intros q Hq. apply A8. lia.
      + destruct (r_int g 0 1 s1) as [idx s2]. destruct (idx =? 0)%Z; [|apply R2].
        destruct (r_real g (f0 a) (f1 a) s2) as [x s3] eqn:Ex. destruct (flt a m0 x) eqn:Tx; [|apply R2].
        destruct Copy2to1 as (l' & -> & C1 & C2 & C3 & C4). cbn [bind okp fst]. exists (upd u' k (nth k v' 0%Z)), v'.
        rewrite upd_length. do 6 (split; auto). split; [|split].
        * intros q Hq. destruct (Nat.eq_dec q k) as [->|Hqk].
          -- rewrite nth_upd_eq by lia. split; auto.
          -- rewrite nth_upd_neq by auto. apply A7. lia.
        * intros q Hq. rewrite nth_upd_neq by lia. apply A8. lia.
        * intros Hnever. specialize (Hnever s2). rewrite Ex in Hnever. cbn [fst] in Hnever. congruence. }
  apply okp_ex in G as ([l' s'] & E & u' & v' & A1 & A2 & A3 & A4 & A5 & A6 & A7 & A8 & A9). cbn [fst] in *.
  exists l', s', u'. split; [exact E|].
  assert (Euv : v' = u').
  { apply (list_ext_nth _ _ _ 0%Z); [lia|]. intros k Hk. symmetry. apply A7. lia. }
  rewrite Euv in A4. do 5 (split; auto). split; [|exact A9]. intros k Hk. now apply A7.
Qed.
End Vector.
