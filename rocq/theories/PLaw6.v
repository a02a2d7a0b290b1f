(** The laws of initial vectors and of generated networks. *)
From Verif Require Import Base BaseFacts Arith64 MRandom SRandom PRandom RFacts TRandom SProb SProb2 PProb PProb10 SLaw PLaw PLaw2 PLaw3 PLaw4 PLaw5
  MNetwork SNetwork PNetwork2 MNetGen PNetGen MAgents MDeGroot SDeGroot MDeffuant SDeffuant.
From Coq Require Import Reals Lra Lia Psatz.
Local Open Scope R_scope.

(** ** Averages over products *)
Lemma total_flat {A B} (f : B -> R) (h : A -> list B) l : total f (flat_map h l) = total (fun x => total f (h x)) l.
Proof. induction l as [|x l IH]; cbn [flat_map]; [reflexivity|]. rewrite total_app, IH. reflexivity. Qed.
Lemma products_length {A} (l : list A) ls : length (products (l :: ls)) = (length l * length (products ls))%nat.
Proof.
  cbn [products]. induction l as [|x l IH]; [reflexivity|]. cbn [flat_map length Nat.mul]. rewrite app_length, map_length, IH. reflexivity.
Qed.
Lemma products_mean {A} (f : list A -> R) l ls : l <> [] -> (forall l', In l' ls -> l' <> []) ->
  mean_of f (products (l :: ls)) = mean_of (fun x => mean_of (fun t => f (x :: t)) (products ls)) l.
Proof.
  intros Hl Hls. unfold mean_of. rewrite products_length, mult_INR. cbn [products]. rewrite total_flat.
  assert (HP : 0 < INR (length (products ls))).
  { clear f. induction ls as [|l' ls IH]; [cbn; lra|]. rewrite products_length, mult_INR. apply Rmult_lt_0_compat.
    - apply lt_0_INR. specialize (Hls l' (or_introl eq_refl)). destruct l'; [congruence|cbn; lia].
    - apply IH. intros l0 H0. apply Hls. now right. }
  assert (HL : 0 < INR (length l)) by (apply lt_0_INR; destruct l; [congruence|cbn; lia]).
  rewrite (total_ext (fun x => total (fun t => f (x :: t)) (products ls) / INR (length (products ls))) (fun x => / INR (length (products ls)) * total (fun t => f (x :: t)) (products ls) + 0 * 0)) by (intros; field; lra).
  rewrite (total_lin _ (fun _ => 0)). rewrite (total_ext (fun x => total f (map (cons x) (products ls))) (fun x => total (fun t => f (x :: t)) (products ls))) by (intros; apply total_map).
  field. lra.
Qed.
Lemma products_nonempty {A} (ls : list (list A)) : (forall l, In l ls -> l <> []) -> products ls <> [].
Proof.
  induction ls as [|l ls IH]; intros H; [discriminate|]. intros E. apply (f_equal (@length _)) in E. rewrite products_length in E. cbn [length] in E.
  apply Nat.eq_mul_0 in E as [E|E]; apply length_zero_iff_nil in E; [now apply (H l (or_introl eq_refl))|]. apply IH; auto. intros l' H'. apply H. now right.
Qed.

(** ** Initial vectors *)
Lemma bit_law k m : forall (l : list Z), length l = (k + m)%nat ->
  law m (fun us => for_from k m (fun i os => let '(opinion, s) := os in let (o, s) := r_int uni_rng 0 1 s in
            opinion <- vset opinion i o ;; Ok (opinion, s)) (l, us))
    (fun w => length w = length l) (fun f => mean_of (fun w => f (firstn k l ++ w)) (products (repeat [0; 1]%Z m))).
Proof.
  revert k. induction m as [|m IH]; intros k l HL.
  - apply law_value with (fun f => f l).
    + apply law_ret; [reflexivity|]. intros us. reflexivity.
    + intros f. cbn [repeat products]. unfold mean_of, total. cbn [fold_right length INR]. rewrite app_nil_r, firstn_all2 by lia. field.
  - cbn [for_from].
    apply law_ext with (fun us => let (z, t) := r_int uni_rng 0 1 us in (fun z t => for_from (S k) m (fun i os => let '(opinion, s) := os in let (o, s) := r_int uni_rng 0 1 s in
            opinion <- vset opinion i o ;; Ok (opinion, s)) (upd l k z, t)) z t).
    2:{ intros us. destruct (r_int uni_rng 0 1 us) as [z t]. rewrite vset_ok by lia. reflexivity. }
    eapply law_value.
    + apply (law_int _ m 0 1 _ (fun w => length w = length l) (fun z f => mean_of (fun w => f (firstn (S k) (upd l k z) ++ w)) (products (repeat [0; 1]%Z m)))); [lia|].
      intros z Hz. eapply law_weaken; [apply IH; rewrite upd_length; lia|]. intros w Hw. now rewrite upd_length in Hw.
    + intros f. cbv beta. change (Z.to_nat (1 - 0 + 1)) with 2%nat. cbn [repeat].
      rewrite products_mean; [|discriminate|intros l' Hl'; apply repeat_spec in Hl'; subst; discriminate].
      assert (E : forall z, firstn (S k) (upd l k z) = firstn k l ++ [z]).
      { intros z. clear -HL. revert l HL. induction k as [|k IHk]; intros [|x l] HL; cbn [length] in HL; try lia; [reflexivity|]. cbn [upd firstn app]. f_equal. apply IHk. lia. }
      unfold mean_of at 1 3. cbn [seq length]. unfold total at 1 2. cbn [fold_right]. rewrite !E. change (0 + Z.of_nat 0)%Z with 0%Z. change (0 + Z.of_nat 1)%Z with 1%Z.
      f_equal. f_equal; [|f_equal]; apply mean_ext; intros w _; now rewrite <- app_assoc.
Qed.

Lemma population_law dim m : forall i (l : list vector_agent), length l = (i + m)%nat ->
  law (m * dim) (fun us => for_from i m (fun i ls => let '(l, s) := ls in x <- vget l i ;;
    '(opinion, s) <- for_n dim (fun k os => let '(opinion, s) := os in let (o, s) := r_int uni_rng 0 1 s in
        opinion <- vset opinion k o ;; Ok (opinion, s)) (resize 0%Z (v_opinion x) dim, s) ;;
    l <- vset l i (mkVector opinion) ;; Ok (l, s)) (l, us))
   (fun _ => True) (fun f => mean_of (fun ws => f (firstn i l ++ map mkVector ws)) (products (repeat (products (repeat [0; 1]%Z dim)) m))).
Proof.
  assert (NE : products (repeat [0; 1]%Z dim) <> []) by (apply products_nonempty; intros l' Hl'; apply repeat_spec in Hl'; subst; discriminate).
  induction m as [|m IH]; intros i l HL.
  - apply law_value with (fun f => f l).
    + apply law_ret; [exact I|reflexivity].
    + intros f. cbn [repeat products]. unfold mean_of, total. cbn [fold_right length INR map]. rewrite app_nil_r, firstn_all2 by lia. field.
  - cbn [for_from Nat.mul].
    match goal with |- law _ (fun us => bind _ (fun a0 => for_from (S i) m ?b a0)) _ _ => set (body := b) in * end.
    set (x := nth i l (mkVector [])).
    set (inner := fun us => for_from 0 dim (fun k os => let '(opinion, s) := os in let (o, s) := r_int uni_rng 0 1 s in
            opinion <- vset opinion k o ;; Ok (opinion, s)) (resize 0%Z (v_opinion x) dim, us)).
    apply law_ext with (fun us => bind (inner us) (fun r => (fun w t => for_from (S i) m body (upd l i (mkVector w), t)) (fst r) (snd r))).
    2:{ intros us. rewrite (vget_lt _ _ _ (mkVector [])) by lia. cbn [bind]. fold x. unfold for_n.
        match goal with |- bind (bind ?p _) _ = bind ?q _ => change p with q; destruct q as [[w t]| | |] end; cbn [bind fst snd]; auto.
        rewrite vset_ok by lia. reflexivity. }
    eapply law_value.
    + apply (law_bind _ _ dim (m * dim) inner (fun w t => for_from (S i) m body (upd l i (mkVector w), t)) (fun w => length w = dim) (fun _ => True)
        (fun f => mean_of f (products (repeat [0; 1]%Z dim)))
        (fun w f => mean_of (fun ws => f (firstn (S i) (upd l i (mkVector w)) ++ map mkVector ws)) (products (repeat (products (repeat [0; 1]%Z dim)) m)))).
      * pose proof (bit_law 0 dim (resize 0%Z (v_opinion x) dim) ltac:(now rewrite resize_length)) as B. cbn [firstn app] in B. unfold inner.
        eapply law_weaken; [exact B|]. intros w Hw. now rewrite resize_length in Hw.
      * intros w _. apply IH. rewrite upd_length. lia.
    + intros f. cbn [repeat]. rewrite products_mean; [|exact NE|intros l' Hl'; apply repeat_spec in Hl'; now subst].
      apply mean_ext. intros w _. apply mean_ext. intros ws _. f_equal.
      assert (E : forall z, firstn (S i) (upd l i z) = firstn i l ++ [z]).
      { intros z. clear -HL. revert l HL. induction i as [|i IHi]; intros [|y l] HL; cbn [length] in HL; try lia; [reflexivity|]. cbn [upd firstn app]. f_equal. apply IHi. lia. }
      rewrite E, <- app_assoc. reflexivity.
Qed.

(** ** Generated networks *)
Lemma quiet_draws c : forall (K : list R -> list R -> R) V M,
  (forall ds M', (M <= M')%nat -> expects M' (K ds) V) ->
  forall M', (c + M <= M')%nat -> expects M' (fun us => K (draws uni_rng c us) (draws_st uni_rng c us)) V.
Proof.
  induction c as [|c IH]; intros K V M HK M' HM; cbn [draws draws_st].
  - apply HK. lia.
  - destruct M' as [|M']; [lia|].
    assert (Hp : 0 <= 1 <= 1) by lra. replace V with (1 * V + (1 - 1) * V) by ring.
    apply coin_expects; auto; intros u Hu Hup;
      (apply (expects_ext _ _ (fun us => K (u :: draws uni_rng c us) (draws_st uni_rng c us)));
       [intros us _ _; cbn [uni_rng r_real]; rewrite variate_in by auto; cbn [fst snd RA f0 f1]; replace (0 + u * (1 - 0)) with u by ring; reflexivity|];
       apply (IH (fun ds => K (u :: ds)) V M); [intros ds M1 HM1; now apply HK|lia]).
Qed.

Definition row_choices (self : bool) (n k i : nat) : list (list nat) :=
  map (fun r => r ++ (if self then [i] else [])) (sublists k (others i n)).
Section Generated.
Context {A : Type} (d : A) (n k : nat) (self : bool).
Hypothesis Hk : (k < n)%nat.
Definition gen_body : nat -> (list (list nat) * list (list R)) * list R -> res ((list (list nat) * list (list R)) * list R) :=
  fun i_agent st =>
      let '(nl, wl, s) := st in
      '(buffer, s) <- draw_unique_k_from_n (a:=RA) uni_rng (Some i_agent) k n [] s ;;
      let weights := resize (f0 RA) [] (length buffer) in
      '(weights, norm, s) <- draw_weights (a:=RA) uni_rng (length buffer) weights (f0 RA) s ;;
      let '(buffer, weights, norm, s) :=
        if self then
          let (u, s) := r_real uni_rng (f0 RA) (f1 RA) s in
          (buffer ++ [i_agent], weights ++ [u], fadd RA norm u, s)
        else (buffer, weights, norm, s) in
      weights <- normalize (a:=RA) (length buffer) norm weights ;;
      Ok (nl ++ [buffer], wl ++ [weights], s).
Lemma others_length i : (i < n)%nat -> length (others i n) = (n - 1)%nat.
Proof. intros Hi. pose proof (length_admissible (Some i) n) as H. unfold population_size in H. rewrite (proj2 (Nat.ltb_lt i n) Hi) in H. exact H. Qed.

Lemma row_law i nl wl (K : (list (list nat) * list (list R)) -> list R -> R) (v : list (list nat) -> R) M : (i < n)%nat ->
  (forall row ws M', In row (row_choices self n k i) -> (M <= M')%nat -> expects M' (K (nl ++ [row], wl ++ [ws])) (v (nl ++ [row]))) ->
  forall M', (2 * n + M <= M')%nat ->
    expects M' (fun us => continue K (gen_body i (nl, wl, us))) (mean_of (fun row => v (nl ++ [row])) (row_choices self n k i)).
Proof using Hk.
  intros Hi HK M' HM. pose proof (draw_law (Some i) k n []) as L. cbv zeta in L. change (filter _ (seq 0 n)) with (others i n) in L.
  pose proof (others_length i Hi) as HL. specialize (L ltac:(lia)).
  set (row := fun buffer => buffer ++ (if self then [i] else []) : list nat).
  set (K1 := fun (buffer : list nat) (t : list R) =>
     K (nl ++ [row buffer], wl ++ [map (fun w => w / fsum (a:=RA) (draws uni_rng (length (row buffer)) t)) (draws uni_rng (length (row buffer)) t)]) (draws_st uni_rng (length (row buffer)) t)).
  apply (expects_ext _ _ (fun us => continue K1 (draw_unique_k_from_n (a:=RA) uni_rng (Some i) k n [] us))).
  { intros us _ _. unfold gen_body.
    match goal with |- continue _ (bind ?x _) = continue _ ?y => change y with x; destruct x as [[buffer s1]| | |] end; cbn [bind continue]; auto.
    rewrite draw_weights_eq by apply resize_length. cbn [bind]. unfold K1, row. destruct self.
    - pose proof (draws_S uni_rng (length buffer) s1) as DS. pose proof (draws_st_S uni_rng (length buffer) s1) as DT.
      destruct (r_real uni_rng (f0 RA) (f1 RA) (draws_st uni_rng (length buffer) s1)) as [u s2]. cbn [fst snd] in *.
      rewrite normalize_eq by (rewrite !app_length, draws_length; auto). cbn [bind continue]. rewrite app_length, Nat.add_1_r.
      rewrite DS, DT, fsum_snoc. reflexivity.
    - rewrite normalize_eq by (apply draws_length). cbn [bind continue]. rewrite app_nil_r. reflexivity. }
  unfold row_choices. unfold mean_of. rewrite total_map, map_length.
  apply (L K1 (fun buffer => v (nl ++ [row buffer])) (n + M)%nat); [|lia].
  intros buffer Hb M1 HM1. unfold K1.
  assert (Lb : (length (row buffer) <= n)%nat).
  { unfold row. rewrite app_length.
    assert (Hlen : length buffer = k).
    { assert (G : forall (l : list nat) k p, In p (sublists k l) -> length p = k).
      { induction l as [|y l IHl]; intros [|k'] p Hp; cbn [sublists] in Hp; try (destruct Hp as [<-|[]]; reflexivity); try destruct Hp.
        apply in_app_or in Hp as [Hp|Hp]; [|now apply IHl in Hp]. apply in_map_iff in Hp as (q & <- & Hq). apply IHl in Hq. cbn. lia. }
      eapply G; eauto. }
    destruct self; cbn [length]; lia. }
  apply (quiet_draws (length (row buffer)) (fun ds t => K (nl ++ [row buffer], wl ++ [map (fun w => w / fsum (a:=RA) ds) ds]) t) (v (nl ++ [row buffer])) M); [|lia].
  intros ds M2 HM2. apply HK; auto. unfold row_choices. apply in_map_iff. exists buffer. auto.
Qed.
Lemma rows_law m : forall i nl wl (K : (list (list nat) * list (list R)) -> list R -> R) (v : list (list nat) -> R) M, (i + m <= n)%nat ->
  (forall nl' wl' M', (M <= M')%nat -> expects M' (K (nl', wl')) (v nl')) ->
  forall M', (m * (2 * n) + M <= M')%nat ->
    expects M' (fun us => continue K (for_from i m gen_body (nl, wl, us))) (mean_of (fun rows => v (nl ++ rows)) (products (map (row_choices self n k) (seq i m)))).
Proof using Hk.
  assert (NE : forall i, (i < n)%nat -> row_choices self n k i <> []).
  { intros i Hi E. unfold row_choices in E. apply map_eq_nil in E. apply (f_equal (fun l => INR (length l))) in E.
    rewrite sublists_count in E by (rewrite others_length by auto; lia). pose proof (C_pos (length (others i n)) k). cbn in E. lra. }
  induction m as [|m IH]; intros i nl wl K v M Hi HK M' HM.
  - cbn [for_from seq map products continue]. unfold mean_of, total. cbn [fold_right length INR]. rewrite app_nil_r.
    replace ((v nl + 0) / 1) with (v nl) by field. apply HK. lia.
  - cbn [seq map]. rewrite products_mean.
    + apply (expects_ext _ _ (fun us => continue (fun nw t => continue K (for_from (S i) m gen_body (nw, t))) (gen_body i (nl, wl, us)))).
      { intros us _ _. cbn [for_from]. destruct (gen_body i (nl, wl, us)) as [[[nl' wl'] t]| | |]; reflexivity. }
      rewrite (mean_ext _ (fun row => mean_of (fun rows => v ((nl ++ [row]) ++ rows)) (products (map (row_choices self n k) (seq (S i) m))))).
      2:{ intros row _. apply mean_ext. intros rows _. now rewrite <- app_assoc. }
      apply (row_law i nl wl _ (fun nl' => mean_of (fun rows => v (nl' ++ rows)) (products (map (row_choices self n k) (seq (S i) m)))) (m * (2 * n) + M)%nat); [lia| |lia].
      intros row ws M1 Hrow HM1. apply (IH (S i) (nl ++ [row]) (wl ++ [ws]) K v M); auto. lia.
    + apply NE. lia.
    + intros l Hl. apply in_map_iff in Hl as (j & <- & Hj). apply in_seq in Hj. apply NE. lia.
Qed.
Lemma generated_law (f : list (list nat) -> R) :
  expectation (fun us => of_result (fun G : network A R => f (neigh G)) (generate_n_connections (a:=RA) uni_rng d n k self us))
    (mean_of f (products (map (row_choices self n k) (seq 0 n)))).
Proof using Hk.
  exists (n * (2 * n))%nat. intros M' HM.
  apply (expects_ext _ _ (fun us => continue (fun nw _ => f (fst nw)) (for_from 0 n gen_body ([], [], us)))).
  { intros us _ _. unfold generate_n_connections, for_n.
    match goal with |- of_result _ (bind ?x _) = continue _ ?y => change x with y; destruct y as [[[nl wl] t]| | |] end; reflexivity. }
  apply (rows_law n 0 [] [] (fun nw _ => f (fst nw)) f 0); [lia| |lia]. intros nl' wl' M1 _. apply expects_const.
Qed.
End Generated.
