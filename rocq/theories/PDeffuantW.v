(** The update rule of the vector model as the relation [vector_meets]. *)
From Verif Require Import Base BaseFacts Arith64 MRandom SRandom MNetwork SNetwork MAgents MDeGroot SDeGroot MDeffuant SDeffuant PDeffuant PDeffuantV.

Section Vector.
Context {a : Arith} (g : Rng a).

Lemma settled_length mu u v s w s' : settled g mu u v s w s' -> length w = length u.
Proof. induction 1; cbn; congruence. Qed.
Lemma settled_self mu u s : forall w s', settled g mu u u s w s' -> w = u /\ s' = s.
Proof.
  induction u as [|o u IH]; intros w s' H; inversion H; subst; auto; try congruence.
  match goal with K : settled g mu u u _ _ _ |- _ => destruct (IH _ _ K) as [-> ->]; auto end.
Qed.
Lemma settled_refl mu u s : settled g mu u u s u s.
Proof. induction u; constructor; auto. Qed.

(** the body of the loop *)
Definition vbody (m0 : F a) i1 i2 : nat -> list vector_agent * rst g -> res (list vector_agent * rst g) := fun k ls =>
      let '(l, s) := ls in
      o1 <- component l i1 k ;;
      o2 <- component l i2 k ;;
      if negb (o1 =? o2)%Z then
        let (idx_selected, s) := r_int g 0 1 s in
        if (idx_selected =? 0)%Z then
          let (x, s) := r_real g (f0 a) (f1 a) s in
          if flt a m0 x then
            l <- set_component l i1 k o2 ;; Ok (l, s)
          else
            l <- set_component l i2 k o1 ;; Ok (l, s)
        else
          l <- set_component l i2 k o1 ;; Ok (l, s)
      else Ok (l, s).

Lemma nth_error_mid {T} (p : list T) x q : nth_error (p ++ x :: q) (length p) = Some x.
Proof. induction p; cbn; auto. Qed.
Lemma upd_mid {T} (p : list T) x y q : upd (p ++ x :: q) (length p) y = p ++ y :: q.
Proof. induction p; cbn; congruence. Qed.

Lemma set_component_mid (l : list vector_agent) i p x y q :
  nth_error l i = Some (mkVector (p ++ x :: q)) ->
  exists l', set_component l i (length p) y = Ok l' /\ length l' = length l /\
    nth_error l' i = Some (mkVector (p ++ y :: q)) /\ (forall k, k <> i -> nth_error l' k = nth_error l k).
Proof.
  intros E. assert (L : i < length l) by (apply nth_error_Some; congruence).
  unfold set_component. rewrite (proj2 (vget_ok _ l i _) E). cbn [bind v_opinion].
  rewrite vset_ok by (rewrite app_length; cbn; lia). cbn [bind]. rewrite vset_ok by lia. rewrite upd_mid.
  eexists. split; [reflexivity|]. rewrite upd_length. split; auto. split; [now rewrite nth_error_upd_eq by lia|].
  intros k Hk. now rewrite nth_error_upd_neq by auto.
Qed.

Lemma vloop (m0 : F a) i1 i2 : i1 <> i2 -> forall u v p l s, length u = length v ->
  nth_error l i1 = Some (mkVector (p ++ u)) -> nth_error l i2 = Some (mkVector (p ++ v)) ->
  exists l' s' w, for_from (length p) (length u) (vbody m0 i1 i2) (l, s) = Ok (l', s') /\
    settled g m0 u v s w s' /\ length l' = length l /\
    nth_error l' i1 = Some (mkVector (p ++ w)) /\ nth_error l' i2 = Some (mkVector (p ++ w)) /\
    (forall k, k <> i1 -> k <> i2 -> nth_error l' k = nth_error l k).
Proof.
  intros Hne. induction u as [|o1 u IH]; intros [|o2 v] p l s HL E1 E2; try discriminate.
  - cbn [length for_from]. exists l, s, []. repeat split; auto. constructor.
  - cbn [length for_from]. injection HL as HL.
    assert (Next : forall o l1 s1, nth_error l1 i1 = Some (mkVector (p ++ o :: u)) -> nth_error l1 i2 = Some (mkVector (p ++ o :: v)) ->
      length l1 = length l -> (forall k, k <> i1 -> k <> i2 -> nth_error l1 k = nth_error l k) ->
      exists l' s' w, for_from (S (length p)) (length u) (vbody m0 i1 i2) (l1, s1) = Ok (l', s') /\
        settled g m0 u v s1 w s' /\ length l' = length l /\
        nth_error l' i1 = Some (mkVector (p ++ o :: w)) /\ nth_error l' i2 = Some (mkVector (p ++ o :: w)) /\
        (forall k, k <> i1 -> k <> i2 -> nth_error l' k = nth_error l k)).
    { intros o l1 s1 F1 F2 FL FK. destruct (IH v (p ++ [o]) l1 s1 HL) as (l' & s' & w & E & S1 & L1 & N1 & N2 & N3).
      - rewrite <- app_assoc. exact F1.
      - rewrite <- app_assoc. exact F2.
      - rewrite app_length in E. cbn [length] in E. rewrite Nat.add_1_r in E. rewrite <- app_assoc in N1, N2. cbn [app] in N1, N2.
        exists l', s', w. repeat split; auto; try congruence. intros k K1 K2. rewrite N3; auto. }
    unfold vbody at 1. unfold component. rewrite (proj2 (vget_ok _ l i1 _) E1), (proj2 (vget_ok _ l i2 _) E2). cbn [bind v_opinion].
    rewrite (proj2 (vget_ok _ (p ++ o1 :: u) (length p) o1) (nth_error_mid p o1 u)). cbn [bind].
    rewrite (proj2 (vget_ok _ (p ++ o2 :: v) (length p) o2) (nth_error_mid p o2 v)). cbn [bind].
    destruct (Z.eqb_spec o1 o2) as [->|Ho]; cbn [negb].
    + cbn [bind]. destruct (Next o2 l s E1 E2 eq_refl ltac:(auto)) as (l' & s' & w & E & S1 & R).
      exists l', s', (o2 :: w). split; auto. split; [now constructor|]. auto.
    + assert (To2 : exists l1, set_component l i2 (length p) o1 = Ok l1 /\ nth_error l1 i1 = Some (mkVector (p ++ o1 :: u)) /\
        nth_error l1 i2 = Some (mkVector (p ++ o1 :: v)) /\ length l1 = length l /\ (forall k, k <> i1 -> k <> i2 -> nth_error l1 k = nth_error l k)).
      { destruct (set_component_mid l i2 p o2 o1 v E2) as (l1 & F & FL & F2 & FK). exists l1. repeat split; auto. now rewrite FK. }
      assert (To1 : exists l1, set_component l i1 (length p) o2 = Ok l1 /\ nth_error l1 i1 = Some (mkVector (p ++ o2 :: u)) /\
        nth_error l1 i2 = Some (mkVector (p ++ o2 :: v)) /\ length l1 = length l /\ (forall k, k <> i1 -> k <> i2 -> nth_error l1 k = nth_error l k)).
      { destruct (set_component_mid l i1 p o1 o2 u E1) as (l1 & F & FL & F2 & FK). exists l1. repeat split; auto. rewrite FK by auto. exact E2. }
      destruct (r_int g 0 1 s) as [z s1] eqn:Ez. destruct (Z.eqb_spec z 0) as [->|Hz].
      * destruct (r_real g (f0 a) (f1 a) s1) as [x s2] eqn:Ex. destruct (flt a m0 x) eqn:Tx.
        -- destruct To1 as (l1 & F & A1 & A2 & A3 & A4). rewrite F. cbn [bind].
           destruct (Next o2 l1 s2 A1 A2 A3 A4) as (l' & s' & w & E & S1 & R).
           exists l', s', (o2 :: w). split; [exact E|]. split; [eapply settled_first; eauto|exact R].
        -- destruct To2 as (l1 & F & A1 & A2 & A3 & A4). rewrite F. cbn [bind].
           destruct (Next o1 l1 s2 A1 A2 A3 A4) as (l' & s' & w & E & S1 & R).
           exists l', s', (o1 :: w). split; [exact E|]. split; [eapply settled_second_draw; eauto|exact R].
      * destruct To2 as (l1 & F & A1 & A2 & A3 & A4). rewrite F. cbn [bind].
        destruct (Next o1 l1 s1 A1 A2 A3 A4) as (l' & s' & w & E & S1 & R).
        exists l', s', (o1 :: w). split; [exact E|]. split; [eapply settled_second; eauto|exact R].
Qed.

Lemma update_vector_meets (thr m0 : F a) i1 i2 (l : list vector_agent) s u v :
  nth_error l i1 = Some (mkVector u) -> nth_error l i2 = Some (mkVector v) -> length u = length v ->
  (Z.of_nat (length u) < 2147483648)%Z ->
  exists l' s', update_rule_vector g thr m0 i1 i2 l s = Ok (l', s') /\ vector_meets g thr m0 i1 i2 l s l' s'.
Proof.
  intros E1 E2 HL HB. unfold update_rule_vector.
  rewrite (proj2 (vget_ok _ l i1 _) E1), (proj2 (vget_ok _ l i2 _) E2). cbn [bind v_opinion].
  rewrite hamming_ok; auto; [|pose proof (differing_le u v); lia]. cbn [bind].
  destruct (flt a (fofZ a (Z.of_nat (differing u v))) thr) eqn:T.
  - destruct (Nat.eq_dec i1 i2) as [<-|Hne].
    + assert (v = u) by congruence. subst v. exists l, s. split.
      * match goal with |- ?m = _ => assert (G : okp m (fun r => r = (l, s))) end.
        { apply (for_n_inv _ (fun _ r => r = (l, s))); auto. intros k r Hk ->. unfold component.
          rewrite (proj2 (vget_ok _ l i1 _) E1). cbn [bind v_opinion]. rewrite (vget_lt _ _ _ 0%Z) by auto. cbn [bind]. now rewrite Z.eqb_refl. }
        now apply okp_ex in G as (r & -> & ->).
      * split; auto. split; auto. intros u' v' F1 F2. assert (u' = u) by congruence. assert (v' = u) by congruence. subst. rewrite T.
        exists u. split; auto using settled_refl.
    + destruct (vloop m0 i1 i2 Hne u v [] l s HL E1 E2) as (l' & s' & w & E & S1 & L1 & N1 & N2 & N3).
      exists l', s'. split; [exact E|]. split; auto. split; auto. intros u' v' F1 F2.
      assert (u' = u) by congruence. assert (v' = v) by congruence. subst. rewrite T. exists w. auto.
  - exists l, s. split; auto. split; auto. split; auto. intros u' v' F1 F2.
    assert (u' = u) by congruence. assert (v' = v) by congruence. subst. now rewrite T.
Qed.

Hypothesis Hs : sample_ok g.
Hypothesis Hi : int_ok g.

Lemma vector_meets_dims thr m0 i j l s l' s' dim : i < length l -> j < length l ->
  Forall (fun x => length (v_opinion x) = dim) l -> vector_meets g thr m0 i j l s l' s' ->
  Forall (fun x => length (v_opinion x) = dim) l'.
Proof using.
  intros L1 L2 HD (M1 & M2 & M3).
  destruct (nth_error l i) as [[u]|] eqn:E1; [|apply nth_error_None in E1; lia].
  destruct (nth_error l j) as [[v]|] eqn:E2; [|apply nth_error_None in E2; lia].
  specialize (M3 u v eq_refl eq_refl). destruct (flt a _ thr); [|now destruct M3 as [-> _]].
  destruct M3 as (w & S1 & N1 & N2). apply settled_length in S1. rewrite Forall_forall in HD |- *.
  pose proof (HD _ (nth_error_In _ _ E1)) as D. cbn [v_opinion] in D.
  intros x Hx. apply In_nth_error in Hx as (k & Hk).
  destruct (Nat.eq_dec k i) as [->|Ki]; [assert (x = mkVector w) by congruence; subst; cbn; lia|].
  destruct (Nat.eq_dec k j) as [->|Kj]; [assert (x = mkVector w) by congruence; subst; cbn; lia|].
  apply HD. eapply nth_error_In. rewrite <- M2; eauto.
Qed.

Lemma vector_encounters_ok thr m0 use dim n : forall (net : network vector_agent (F a)) s i0, 0 < n_agents net -> can_select use net ->
  (Z.of_nat dim < 2147483648)%Z -> Forall (fun x => length (v_opinion x) = dim) (agents net) ->
  exists l' s', for_from i0 n (fun _ st => let '(network, s) := st in encounter g (update_rule_vector g thr m0) use network s) (net, s)
      = Ok (with_agents net l', s') /\ length l' = n_agents net /\
    vector_encounters g thr m0 use net n (agents net) s l' s'.
Proof.
  induction n as [|n IH]; intros net s i0 Hn Hc HB HD.
  - exists (agents net), s. cbn [for_from]. split; [now destruct net|]. split; auto. constructor.
  - cbn [for_from].
    destruct (select_ok g Hs Hi use net s Hn Hc) as (i & j & s1 & E & V). pose proof V as (V1 & V2 & _). cbn [fst snd] in V1, V2.
    destruct (nth_error (agents net) i) as [[u]|] eqn:E1; [|apply nth_error_None in E1; unfold n_agents in *; lia].
    destruct (nth_error (agents net) j) as [[v]|] eqn:E2; [|apply nth_error_None in E2; unfold n_agents in *; lia].
    pose proof HD as HD'. rewrite Forall_forall in HD'.
    pose proof (HD' _ (nth_error_In _ _ E1)) as D1. pose proof (HD' _ (nth_error_In _ _ E2)) as D2. cbn [v_opinion] in D1, D2.
    destruct (update_vector_meets thr m0 i j (agents net) s1 u v E1 E2 ltac:(lia) ltac:(lia)) as (l1 & s2 & EU & M).
    unfold encounter at 1. rewrite E. cbn [bind vget nth_error]. rewrite EU. cbn [bind].
    assert (HL1 : length l1 = n_agents net) by apply M.
    destruct (IH (with_agents net l1) s2 (S i0)) as (l' & s' & EL & HL & VE).
    + unfold n_agents in *. cbn. lia.
    + apply can_select_ext; auto.
    + exact HB.
    + exact (vector_meets_dims thr m0 i j _ s1 l1 s2 dim V1 V2 HD M).
    + exists l', s'. split; [exact EL|]. split; [rewrite HL; exact HL1|]. econstructor; [|exact M|].
      * replace (with_agents net (agents net)) with net by (now destruct net). exact E.
      * clear -VE. cbn [agents with_agents] in VE. remember (with_agents net l1) as N eqn:EN.
        assert (EN2 : forall la, with_agents N la = with_agents net la) by (intros; subst N; reflexivity). clear EN.
        induction VE; [constructor|econstructor; eauto]. now rewrite <- EN2.
Qed.
End Vector.
