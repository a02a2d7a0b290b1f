(** The laws of vector encounters, of initial vectors and of generated networks. *)
From Verif Require Import Base BaseFacts Arith64 MRandom SRandom PRandom RFacts TRandom SProb SProb2 PProb PProb10 SLaw PLaw PLaw2 PLaw3 PLaw4
  MNetwork SNetwork PNetwork2 MNetGen PNetGen MAgents MDeGroot SDeGroot MDeffuant SDeffuant PDeffuant PDeffuantV PDeffuantW TDeffuant.
From Coq Require Import Reals Lra Lia Psatz.
Local Open Scope R_scope.

(** A coin, one value of the variate being of no importance. *)
Lemma coin_expects2 (p : R) (f : list R -> R) (A B : R) M : 0 <= p <= 1 ->
  (forall u, 0 < u < 1 -> u < p -> expects M (fun us => f (u :: us)) A) ->
  (forall u, 0 < u < 1 -> p < u -> expects M (fun us => f (u :: us)) B) ->
  expects (S M) f (p * A + (1 - p) * B).
Proof.
  intros Hp HA HB.
  assert (G : expects 1 (fun us => match us with u :: _ => if Rlt_dec u p then A else B | [] => 0 end) (p * A + (1 - p) * B)).
  { apply coin_expects; auto; intros u Hu Hup; cbn [expects]; destruct (Rlt_dec u p); auto; contradiction. }
  destruct G as (h & ex & H1 & H2). exists h, (p :: ex). split; auto.
  intros u Hu Hex. specialize (H1 u Hu (fun H => Hex (or_intror H))). cbn [expects] in H1. rewrite <- H1.
  destruct (Rlt_dec u p); [now apply HA|]. apply HB; auto. destruct (Rtotal_order u p) as [|[->|]]; [contradiction| |auto]. exfalso. apply Hex. now left.
Qed.
Lemma law_coin2 X n (p : R) (P : list R -> res (X * list R)) S EA EB : 0 <= p <= 1 ->
  (forall u, 0 < u < 1 -> u < p -> law n (fun us => P (u :: us)) S EA) ->
  (forall u, 0 < u < 1 -> p < u -> law n (fun us => P (u :: us)) S EB) ->
  law (Datatypes.S n) P S (fun v => p * EA v + (1 - p) * EB v).
Proof.
  intros Hp HA HB K v M HK M' HM. destruct M' as [|M']; [lia|].
  apply coin_expects2; auto; intros u Hu Hup; [apply (HA u Hu Hup K v M)|apply (HB u Hu Hup K v M)]; auto; lia.
Qed.
Lemma law_mono X n m (P : list R -> res (X * list R)) S E : law n P S E -> (n <= m)%nat -> law m P S E.
Proof. intros H Hle K v M HK M' HM. apply (H K v M); auto. lia. Qed.

(** ** Vector encounters *)
Fixpoint settle (mu0 : R) (u v : list Z) (s : list R) : list Z * list R :=
  match u, v with
  | o1 :: u', o2 :: v' =>
      if (o1 =? o2)%Z then let (w, t) := settle mu0 u' v' s in (o1 :: w, t)
      else
        let (z, s1) := r_int uni_rng 0 1 s in
        if (z =? 0)%Z then
          let (x, s2) := r_real uni_rng 0 1 s1 in
          let (w, t) := settle mu0 u' v' s2 in ((if Rltb mu0 x then o2 else o1) :: w, t)
        else let (w, t) := settle mu0 u' v' s1 in (o1 :: w, t)
  | _, _ => ([], s)
  end.
Lemma settled_settle mu0 u v s w s' : @settled RA uni_rng mu0 u v s w s' -> settle mu0 u v s = (w, s').
Proof.
  induction 1 as [s|o u v s w s' H IH|o1 o2 u v s s1 x s2 w s' Hne E1 E2 F H IH|o1 o2 u v s s1 x s2 w s' Hne E1 E2 F H IH|o1 o2 u v s z s1 w s' Hne E1 Hz H IH]; cbn [settle].
  - reflexivity.
  - rewrite Z.eqb_refl, IH. reflexivity.
  - rewrite (proj2 (Z.eqb_neq _ _) Hne), E1. cbn [Z.eqb]. change (r_real uni_rng 0 1 s1) with (r_real uni_rng (f0 RA) (f1 RA) s1). rewrite E2, IH.
    change (Rltb mu0 x) with (flt RA mu0 x). now rewrite F.
  - rewrite (proj2 (Z.eqb_neq _ _) Hne), E1. cbn [Z.eqb]. change (r_real uni_rng 0 1 s1) with (r_real uni_rng (f0 RA) (f1 RA) s1). rewrite E2, IH.
    change (Rltb mu0 x) with (flt RA mu0 x). now rewrite F.
  - rewrite (proj2 (Z.eqb_neq _ _) Hne), E1, (proj2 (Z.eqb_neq _ _) Hz), IH. reflexivity.
Qed.

Lemma settle_law (mu0 : R) : 0 <= mu0 <= 1 -> forall u v, length u = length v ->
  law (2 * length u) (fun us => Ok (settle mu0 u v us)) (fun w => length w = length u)
    (over_rows (map (component_law mu0) (combine u v))).
Proof.
  intros Hmu. induction u as [|o1 u IH]; intros [|o2 v] HL; cbn [length] in HL; try discriminate.
  - apply law_value with (fun f => f []); [|reflexivity]. apply law_ret; reflexivity.
  - specialize (IH v ltac:(lia)). cbn [combine map]. 
    set (rest := over_rows (map (component_law mu0) (combine u v))) in *.
    assert (Hcons : forall o, law (2 * length u) (fun us => Ok (let (w, t) := settle mu0 u v us in (o :: w, t))) (fun w => length w = S (length u)) (fun f => rest (fun w => f (o :: w)))).
    { intros o. apply law_ext with (fun us => bind (Ok (settle mu0 u v us)) (fun r => Ok (o :: fst r, snd r))).
      - replace (2 * length u)%nat with (2 * length u + 0)%nat by lia.
        apply (law_bind _ _ _ 0 (fun us => Ok (settle mu0 u v us)) (fun w us => Ok (o :: w, us)) (fun w => length w = length u) (fun w => length w = S (length u)) rest (fun w f => f (o :: w))); [exact IH|].
        intros w Hw. apply law_ret; [cbn; now rewrite Hw|reflexivity].
      - intros us. cbn [bind]. now destruct (settle mu0 u v us). }
    cbn [component_law]. destruct (Z.eqb_spec o1 o2) as [->|Hne].
    + apply law_value with (fun f => rest (fun w => f (o2 :: w))).
      * apply law_mono with (2 * length u)%nat; [|cbn [length]; lia]. eapply law_ext; [apply (Hcons o2)|]. intros us. cbn [settle]. now rewrite Z.eqb_refl.
      * intros f. cbn [over_rows]. unfold total. cbn [fold_right fst snd]. fold rest. change (over_rows (map (component_law mu0) (combine u v))) with rest. ring.
    + apply law_value with (fun f => mean_of (fun i => if (i =? 0)%nat then mu0 * rest (fun w => f (o1 :: w)) + (1 - mu0) * rest (fun w => f (o2 :: w)) else rest (fun w => f (o1 :: w))) (seq 0 2)).
      * apply law_ext with (fun us => let (z, s1) := r_int uni_rng 0 1 us in
          (fun z s1 => if (z =? 0)%Z then Ok (let (x, s2) := r_real uni_rng 0 1 s1 in let (w, t) := settle mu0 u v s2 in ((if Rltb mu0 x then o2 else o1) :: w, t))
                       else Ok (let (w, t) := settle mu0 u v s1 in (o1 :: w, t))) z s1).
        2:{ intros us. cbn [settle]. rewrite (proj2 (Z.eqb_neq _ _) Hne). destruct (r_int uni_rng 0 1 us) as [z s1]. now destruct (z =? 0)%Z. }
        replace (2 * length (o1 :: u))%nat with (S (S (2 * length u))) by (cbn [length]; lia).
        eapply law_value.
        -- apply (law_int _ (S (2 * length u)) 0 1 _ (fun w => length w = length (o1 :: u))
              (fun z f => if (z =? 0)%Z then mu0 * rest (fun w => f (o1 :: w)) + (1 - mu0) * rest (fun w => f (o2 :: w)) else rest (fun w => f (o1 :: w)))); [lia|].
           intros z Hz. cbv beta. destruct (Z.eqb_spec z 0) as [->|Nz].
           ++ apply (law_coin2 _ (2 * length u) mu0 _ _ (fun f => rest (fun w => f (o1 :: w))) (fun f => rest (fun w => f (o2 :: w)))); auto.
              ** intros x Hx Hlt. eapply law_ext; [apply (Hcons o1)|]. intros us. cbn [uni_rng r_real]. rewrite variate_in by auto.
                 replace (0 + x * (1 - 0)) with x by ring. destruct (Rltb_spec mu0 x); [lra|reflexivity].
              ** intros x Hx Hlt. eapply law_ext; [apply (Hcons o2)|]. intros us. cbn [uni_rng r_real]. rewrite variate_in by auto.
                 replace (0 + x * (1 - 0)) with x by ring. destruct (Rltb_spec mu0 x); [reflexivity|lra].
           ++ apply law_mono with (2 * length u)%nat; [|lia]. apply (Hcons o1).
        -- intros f. cbv beta. change (Z.to_nat (1 - 0 + 1)) with 2%nat. apply mean_ext. intros i Hi. apply in_seq in Hi. destruct i as [|[|i]]; [reflexivity|reflexivity|lia].
      * intros f. unfold mean_of. cbn [seq length]. cbn [over_rows]. unfold total. cbn [fold_right fst snd Nat.eqb INR].
        change (over_rows (map (component_law mu0) (combine u v))) with rest. field.
Qed.

Lemma update_vector_law (thr mu0 : R) i j (l : list vector_agent) u v : 0 <= mu0 <= 1 -> i <> j ->
  nth_error l i = Some (mkVector u) -> nth_error l j = Some (mkVector v) -> length u = length v ->
  (Z.of_nat (length u) < 2147483648)%Z -> INR (differing u v) < thr ->
  law (2 * length u) (update_rule_vector (a:=RA) uni_rng thr mu0 i j l) (fun _ => True)
    (fun f => over_rows (map (component_law mu0) (combine u v)) (fun w => f (upd (upd l i (mkVector w)) j (mkVector w)))).
Proof.
  intros Hmu Hne Ei Ej HL HB Hd.
  assert (Li : (i < length l)%nat) by (apply nth_error_Some; congruence). assert (Lj : (j < length l)%nat) by (apply nth_error_Some; congruence).
  apply law_ext with (fun us => bind (Ok (settle mu0 u v us)) (fun r => Ok (upd (upd l i (mkVector (fst r))) j (mkVector (fst r)), snd r))).
  - replace (2 * length u)%nat with (2 * length u + 0)%nat by lia.
    apply (law_bind _ _ _ 0 (fun us => Ok (settle mu0 u v us)) (fun w us => Ok (upd (upd l i (mkVector w)) j (mkVector w), us)) (fun w => length w = length u) (fun _ => True)
      (over_rows (map (component_law mu0) (combine u v))) (fun w f => f (upd (upd l i (mkVector w)) j (mkVector w)))); [now apply settle_law|].
    intros w _. now apply law_ret.
  - intros us. destruct (@update_vector_meets RA uni_rng thr mu0 i j l us u v Ei Ej HL HB) as (l' & s' & E & M1 & M2 & M3). rewrite E.
    specialize (M3 u v Ei Ej). cbn [RA flt fofZ] in M3. rewrite <- INR_IZR_INZ in M3.
    destruct (Rltb_spec (INR (differing u v)) thr) as [_|]; [|contradiction]. destruct M3 as (w & Hw & N1 & N2).
    apply settled_settle in Hw. rewrite Hw. cbn [bind fst snd]. f_equal. f_equal.
    apply list_ext. intros k. rewrite nth_error_upd, upd_length. destruct (Nat.eqb_spec j k) as [<-|Nj]; [rewrite (proj2 (Nat.ltb_lt _ _) Lj); exact N2|]. cbn [andb].
    rewrite nth_error_upd. destruct (Nat.eqb_spec i k) as [<-|Ni]; [rewrite (proj2 (Nat.ltb_lt _ _) Li); exact N1|]. cbn [andb]. apply M2; congruence.
Qed.
