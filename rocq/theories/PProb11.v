(** The law of the rows of contacts and of the reciprocity coins. *)
From Verif Require Import Base BaseFacts Arith64 MNetwork MAgents MRandom SRandom PRandom RFacts PReservoir MActivity SActivity PActNet
  SProb SProb2 PProb PProb2 PProb9 PProb10 TProb TProb2 TRandom.
From Coq Require Import Reals Lra.
Local Open Scope R_scope.

Section Rows.
Context (lm : Libm EA) (q : PQ EA) {A : Type} (ops : agent_ops (F EA) A) (st : ad_settings (F EA)) (l : list A).
Notation cc := (contact_count (a:=EA) st).
Variables (act : nat -> R) (w : nat -> nat -> R).
Hypothesis Hp : lpow EA lm = epow.
Hypothesis Hl : llog EA lm = elog.
Hypothesis Hq : pq_bag q.
Hypothesis Ho : pq_ordered (a:=EA) (fun x : ext => exists r, x = Fin r) q.
Hypothesis Hcc : forall i, (i < length l)%nat -> (1 <= cc i < length l)%nat.
Hypothesis Hact : forall i x, nth_error l i = Some x -> get_activity ops x = Fin (act i) /\ 0 <= act i <= 1.
Hypothesis Hw : forall i j, (i < length l)%nat -> (j < length l)%nat -> affinity (a:=EA) lm ops st l i j = Fin (w i j).
Hypothesis Hw0 : forall i j, 0 <= w i j.
Hypothesis Hw1 : forall i j, j <> i -> 0 < w i j.

Fixpoint draw_rows (k i : nat) (buf : list nat) (us : list R) : res (list (list nat) * list R) :=
  match k with
  | O => Ok ([], us)
  | S k' => let (u, s) := r_real tape_rng (f0 EA) (f1 EA) us in
      match nth_error l i with
      | None => UB UbIndex
      | Some x =>
          if flt EA u (get_activity ops x) then
            match reservoir_sampling_A_ExpJ lm tape_rng q (cc i) (length l) (fun j => Ok (affinity lm ops st l i j)) buf s with
            | Ok (c, s) => match draw_rows k' (S i) c s with Ok (cs, s) => Ok (c :: cs, s) | Throw e => Throw e | UB b => UB b | NoFuel => NoFuel end
            | Throw e => Throw e | UB b => UB b | NoFuel => NoFuel
            end
          else match draw_rows k' (S i) buf s with Ok (cs, s) => Ok ([] :: cs, s) | Throw e => Throw e | UB b => UB b | NoFuel => NoFuel end
      end
  end.

Lemma draw_rows_ok i buf s cs s' : contacts_drawn (a:=EA) lm tape_rng q ops st l i buf s cs s' -> draw_rows (length l - i) i buf s = Ok (cs, s').
Proof using.
  induction 1 as [buf s|i buf s x u s1 c s2 cs s3 Ex Eu Ea Ec H IH|i buf s x u s1 cs s2 Ex Eu Ea H IH].
  - now rewrite Nat.sub_diag.
  - assert (Hi : (i < length l)%nat) by (apply nth_error_Some; congruence). replace (length l - i)%nat with (S (length l - S i)) by lia.
    cbn [draw_rows]. match type of Eu with ?t = _ => match goal with |- (let (u, s) := ?t' in _) = _ => change t' with t; rewrite Eu end end. rewrite Ex, Ea, Ec, IH. reflexivity.
  - assert (Hi : (i < length l)%nat) by (apply nth_error_Some; congruence). replace (length l - i)%nat with (S (length l - S i)) by lia.
    cbn [draw_rows]. match type of Eu with ?t = _ => match goal with |- (let (u, s) := ?t' in _) = _ => change t' with t; rewrite Eu end end. rewrite Ex, Ea, IH. reflexivity.
Qed.

Lemma total_map X Y (f : Y -> R) (g : X -> Y) xs : total f (map g xs) = total (fun x => f (g x)) xs.
Proof using. unfold total. induction xs as [|x xs IH]; cbn; auto. now rewrite IH. Qed.
Lemma total_scale X (f : X -> R) c xs : total (fun x => c * f x) xs = c * total f xs.
Proof using. unfold total. induction xs as [|x xs IH]; cbn; [ring|]. rewrite IH. ring. Qed.
Lemma total_ext X (f g : X -> R) xs : (forall x, f x = g x) -> total f xs = total g xs.
Proof using. intros H. unfold total. induction xs as [|x xs IH]; cbn; auto. now rewrite IH, H. Qed.

Theorem rows_law k : forall i buf (K : list (list nat) -> list R -> R) (v : list (list nat) -> R) M, (i + k = length l)%nat ->
  (forall cs, length cs = k -> Forall (fun c => (length c <= length l)%nat) cs -> forall M', (M <= M')%nat -> expects M' (K cs) (v cs)) ->
  forall M', (k * (2 * length l + 3) + M <= M')%nat ->
  expects M' (fun us => continue K (draw_rows k i buf us)) (over_rows (map (fun i => row_law (act i) (w i) (cc i) (length l)) (seq i k)) v).
Proof using Hp Hl Hq Ho Hcc Hact Hw Hw0 Hw1.
  induction k as [|k IH]; intros i buf K v M Hi HK M' HM.
  - cbn [seq map over_rows draw_rows continue]. apply (expects_ext _ _ (K [])); [reflexivity|]. apply HK; [reflexivity|constructor|]. cbn in HM. lia.
  - destruct M' as [|M']; [lia|]. cbn [seq map over_rows].
    set (rest := map (fun i => row_law (act i) (w i) (cc i) (length l)) (seq (S i) k)).
    destruct (nth_error l i) as [x|] eqn:Ex. 2:{ apply nth_error_None in Ex. lia. }
    destruct (Hact i x Ex) as [Ea Hab]. specialize (Hcc i ltac:(lia)) as Hc.
    set (V := fun c => over_rows rest (fun t => v (c :: t))).
    match goal with |- expects _ _ ?val => replace val with (act i * total (fun L => V (rev L) * successive (w i) L (wsum (w i) 0 (length l))) (arrangements (cc i) (seq 0 (length l))) + (1 - act i) * V []) end.
    2:{ unfold row_law. cbn [total fold_right fst snd]. fold (V []).
        match goal with |- _ = _ + fold_right _ 0 ?xs => change (fold_right (fun xp s => snd xp * over_rows rest (fun t => v (fst xp :: t)) + s) 0 xs) with (total (fun xp => snd xp * V (fst xp)) xs) end.
        rewrite total_map. cbn [fst snd]. rewrite <- total_scale. rewrite Rplus_comm. f_equal. apply total_ext. intros L. ring. }
    apply (coin_expects (act i) _ _ _ M'); [exact Hab| |].
    + intros u Hu Hua. apply (expects_ext _ _ (fun us => continue (fun c vs => continue (fun cs => K (c :: cs)) (draw_rows k (S i) c vs))
          (reservoir_sampling_A_ExpJ lm tape_rng q (cc i) (length l) (fun j => Ok (Fin (w i j))) buf us))).
      { intros us _ _. cbn [draw_rows]. rewrite tape_draw, Ex.
        replace (flt EA (Fin u) (get_activity ops x)) with true.
        2:{ rewrite Ea. symmetry. change (Rltb u (act i) = true). destruct (Rltb_spec u (act i)); [try reflexivity; contradiction|try reflexivity; contradiction]. }
        rewrite (reservoir_ext (a:=EA) lm tape_rng q (cc i) (length l) (fun j => Ok (affinity lm ops st l i j)) (fun j => Ok (Fin (w i j)))).
        2:{ intros j Hj. f_equal. apply Hw; lia. }
        destruct (reservoir_sampling_A_ExpJ lm tape_rng q (cc i) (length l) (fun j => Ok (Fin (w i j))) buf us) as [[c vs]| | |]; try reflexivity.
        cbn [continue]. destruct (draw_rows k (S i) c vs) as [[cs s]| | |]; reflexivity. }
      apply (reads_expects _ (cc i + S (2 * (length l - cc i))) _ (fun c => length c = cc i) _ V (k * (2 * length l + 3) + M)).
      * apply (sampler_reads lm q (fun j => Fin (w i j))). lia.
      * intros us c us' E. destruct (C13_k_distinct EA lm tape_rng q (fun j => Ok (Fin (w i j))) (cc i) (length l) buf us Hq) as (out & s' & E' & HL & _); [eauto|lia|].
        rewrite E in E'. injection E' as -> ->. exact HL.
      * intros c HL M2 HM2. apply (IH (S i) c (fun cs => K (c :: cs)) (fun t => v (c :: t)) M); [lia| |lia].
        intros cs HLc HF M3 HM3. apply HK; auto; [cbn; congruence|constructor; auto; lia].
      * apply (C63_expectation lm q (w i) (cc i) (length l) i V buf); auto; [lia|]. left; lia.
      * lia.
    + intros u Hu Hua. apply (expects_ext _ _ (fun us => continue (fun cs => K ([] :: cs)) (draw_rows k (S i) buf us))).
      { intros us _ _. cbn [draw_rows]. rewrite tape_draw, Ex.
        replace (flt EA (Fin u) (get_activity ops x)) with false.
        2:{ rewrite Ea. symmetry. change (Rltb u (act i) = false). destruct (Rltb_spec u (act i)); [try reflexivity; contradiction|try reflexivity; contradiction]. }
        destruct (draw_rows k (S i) buf us) as [[cs s]| | |]; reflexivity. }
      apply (IH (S i) buf (fun cs => K ([] :: cs)) (fun t => v ([] :: t)) M); [lia| |lia].
      intros cs HLc HF M3 HM3. apply HK; auto; [cbn; congruence|constructor; auto; cbn; lia].
Qed.
End Rows.

Theorem coins_law (r : R) : 0 <= r <= 1 -> forall ps (K : list (nat * nat) -> list R -> R) (v : list (nat * nat) -> R) M,
  (forall R0 M', (M <= M')%nat -> expects M' (K R0) (v R0)) ->
  forall M', (length ps + M <= M')%nat ->
  expects M' (fun us => let (R0, s) := coins (a:=EA) tape_rng (Fin r) ps us in K R0 s) (over_coins r ps v).
Proof.
  intros Hr. induction ps as [|p ps IH]; intros K v M HK M' HM.
  - cbn [coins over_coins]. apply HK. cbn in HM. lia.
  - destruct M' as [|M']; [cbn in HM; lia|]. cbn [length] in HM. cbn [over_coins]. apply (coin_expects r _ _ _ M'); [exact Hr| |].
    + intros u Hu Hur. apply (expects_ext _ _ (fun us => let (R0, s) := coins (a:=EA) tape_rng (Fin r) ps us in K (p :: R0) s)).
      { intros us _ _. cbn [coins]. rewrite tape_draw. destruct (coins (a:=EA) tape_rng (Fin r) ps us) as [R0 s].
        replace (flt EA (Fin u) (Fin r)) with true; auto. symmetry. change (Rltb u r = true). destruct (Rltb_spec u r); [try reflexivity; contradiction|try reflexivity; contradiction]. }
      apply (IH (fun R0 => K (p :: R0)) (fun R0 => v (p :: R0)) M); auto. lia.
    + intros u Hu Hur. apply (expects_ext _ _ (fun us => let (R0, s) := coins (a:=EA) tape_rng (Fin r) ps us in K R0 s)).
      { intros us _ _. cbn [coins]. rewrite tape_draw. destruct (coins (a:=EA) tape_rng (Fin r) ps us) as [R0 s].
        replace (flt EA (Fin u) (Fin r)) with false; auto. symmetry. change (Rltb u r = false). destruct (Rltb_spec u r); [try reflexivity; contradiction|try reflexivity; contradiction]. }
      apply (IH K v M); auto. lia.
Qed.

Lemma filter_length_le X (p : X -> bool) (xs : list X) : (length (filter p xs) <= length xs)%nat.
Proof. induction xs as [|x xs IH]; cbn; auto. destruct (p x); cbn; lia. Qed.
Lemma one_way_length cs n : Forall (fun c => (length c <= n)%nat) cs -> (length (one_way cs) <= length cs * n)%nat.
Proof.
  intros H. unfold one_way. etransitivity; [apply filter_length_le|]. unfold contact_pairs.
  assert (G : forall is, (length (flat_map (fun i => map (fun j => (i, j)) (nth i cs [])) is) <= length is * n)%nat).
  { induction is as [|i is IH]; cbn [flat_map length Nat.mul]; [lia|]. rewrite app_length, map_length.
    assert (length (nth i cs []) <= n)%nat; [|lia]. destruct (Nat.lt_ge_cases i (length cs)) as [Hi|Hi].
    - rewrite Forall_forall in H. apply H. now apply nth_In.
    - rewrite nth_overflow by lia. cbn. lia. }
  specialize (G (seq 0 (length cs))). now rewrite seq_length in G.
Qed.
