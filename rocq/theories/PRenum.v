(** Renumbering the agents of a mean-field model, for SRenum. *)
From Verif Require Import Base BaseFacts Arith64 RFacts MRandom SRandom PRandom MDist MNetwork SNetwork PNetwork PNetwork2
  MAgents MDeGroot MActivity SActivity PActStep PActNet PActIter PActMean PActIter2 PActThm PActSym PActReal PActMean2 SRelax PRelax TMean SEquiv TEquiv SRenum.
From Coq Require Import Reals Lra Psatz Permutation.
Local Open Scope R_scope.

Section Turn.
Variables (n : nat) (sg : nat -> nat).
Hypothesis Hsg : renumbering n sg.

(** Lists of numbers under the new numbering. *)
Definition turned_list (xs xs' : list R) : Prop :=
  length xs = n /\ length xs' = n /\ forall i, (i < n)%nat -> nth (sg i) xs' 0 = nth i xs 0.

Lemma reindex (f f' : nat -> R) : (forall j, (j < n)%nat -> f' (sg j) = f j) -> Rsum (map f' (seq 0 n)) = Rsum (map f (seq 0 n)).
Proof using Hsg.
  intros H. rewrite <- (Rsum_perm _ _ (Permutation_map f' (renumbering_perm n sg Hsg))), map_map. apply Rsum_map_ext.
  intros j Hj. apply in_seq in Hj. apply H. lia.
Qed.

Lemma turned_axpy xs xs' (h : R) ks ks' : turned_list xs xs' -> turned_list ks ks' -> turned_list (axpy (a:=RA) xs h ks) (axpy (a:=RA) xs' h ks').
Proof using Hsg.
  intros (A1 & A2 & A3) (B1 & B2 & B3).
  assert (La : forall (u ks : list R), length u = n -> length ks = n -> length (axpy (a:=RA) u h ks) = n).
  { intros u k H1 H2. unfold axpy. rewrite map_length. eapply eq_trans; [apply combine_length|]. change (Nat.min (@length R u) (@length R k) = n). rewrite H1, H2. apply Nat.min_id. }
  split; [now apply La|]. split; [now apply La|]. intros i Hi. pose proof (proj1 Hsg i Hi) as Hs.
  eapply eq_trans; [apply (nth_axpy xs' ks' h (sg i)); [rewrite A2; exact Hs|rewrite A2; exact B2]|].
  eapply eq_trans; [|symmetry; apply (nth_axpy xs ks h i); [rewrite A1; exact Hi|rewrite A1; exact B1]].
  pose proof (A3 i Hi) as A4. pose proof (B3 i Hi) as B4. cbn [fadd fmul RA].
  match goal with |- ?u = ?w => change (@eq R u w) end. change (f0 RA) with 0. rewrite <- A4, <- B4. reflexivity.
Qed.
Lemma turned_rk4 (f f' : list R -> list R) (h : R) xs xs' : (forall ys ys', turned_list ys ys' -> turned_list (f ys) (f' ys')) -> turned_list xs xs' ->
  turned_list (rk4_step (a:=RA) f h xs) (rk4_step (a:=RA) f' h xs').
Proof using Hsg.
  intros Hf H. unfold rk4_step. cbv zeta. set (c := fmul RA (flit RA 1 2) h).
  pose proof (Hf _ _ H) as H1. pose proof (Hf _ _ (turned_axpy _ _ c _ _ H H1)) as H2. pose proof (Hf _ _ (turned_axpy _ _ c _ _ H H2)) as H3.
  pose proof (Hf _ _ (turned_axpy _ _ h _ _ H H3)) as H4.
  destruct H as (A1 & A2 & A3). split; [rewrite map_length, seq_length; exact A1|]. split; [rewrite map_length, seq_length; exact A2|].
  intros i Hi. pose proof (proj1 Hsg i Hi) as Hs.
  assert (Hs' : (sg i < @length R xs')%nat) by (eapply Nat.lt_le_trans; [exact Hs|apply Nat.eq_le_incl; symmetry; exact A2]).
  assert (Hi' : (i < @length R xs)%nat) by (eapply Nat.lt_le_trans; [exact Hi|apply Nat.eq_le_incl; symmetry; exact A1]).
  eapply eq_trans; [apply nth_map_seq; exact Hs'|]. eapply eq_trans; [|symmetry; apply nth_map_seq; exact Hi'].
  cbv beta. change (f0 RA) with 0%R.
  pose proof (A3 i Hi) as E0. pose proof (proj2 (proj2 H1) i Hi) as E1. pose proof (proj2 (proj2 H2) i Hi) as E2.
  pose proof (proj2 (proj2 H3) i Hi) as E3. pose proof (proj2 (proj2 H4) i Hi) as E4.
  assert (G : forall a0 a1 a2 a3 a4 b0 b1 b2 b3 b4 : R, a0 = b0 -> a1 = b1 -> a2 = b2 -> a3 = b3 -> a4 = b4 ->
     a0 + h * (a1 + IZR 2 * a2 + IZR 2 * a3 + a4) / IZR 6 = b0 + h * (b1 + IZR 2 * b2 + IZR 2 * b3 + b4) / IZR 6) by (intros; subst; reflexivity).
  exact (G _ _ _ _ _ _ _ _ _ _ E0 E1 E2 E3 E4).
Qed.
End Turn.

Section Mean.
Context (lm : Libm RA) {A : Type} (ops : agent_ops (F RA) A).
Variables (n : nat) (sg : nat -> nat) (st st' : ad_settings (F RA)) (l l' : list A).
Hypothesis Hsg : renumbering n sg.
Hypothesis Hst : settings_renumbered (D:=F RA) (f0 RA) sg n st st'.
Hypothesis Hl : length l = n.
Hypothesis Hl' : length l' = n.
Hypothesis HA : forall i, (i < n)%nat -> nth_error l' (sg i) = nth_error l i.

Lemma bot_number i : (i < n)%nat -> (sg i <? n_bots st)%nat = (i <? n_bots st)%nat.
Proof using Hst.
  intros Hi. destruct Hst as (_ & B & _). specialize (B i Hi). apply Bool.eq_iff_eq_true. rewrite !Nat.ltb_lt. exact B.
Qed.
Lemma same_bots : n_bots st' = n_bots st.
Proof using Hst. destruct Hst as ((bm & ba & bo & bh & E) & _). now rewrite E. Qed.
Lemma homophily_turned i : (i < n)%nat -> homophily_of (a:=RA) st' (sg i) = homophily_of (a:=RA) st i.
Proof using Hst.
  intros Hi. unfold homophily_of. rewrite same_bots, bot_number by auto. destruct Hst as ((bm & ba & bo & bh & E) & _ & B).
  destruct (Nat.ltb_spec i (n_bots st)) as [Hb|Hb]; [apply (B i Hb)|]. now rewrite E.
Qed.
Lemma count_turned i : (i < n)%nat -> contact_count (a:=RA) st' (sg i) = contact_count (a:=RA) st i.
Proof using Hst.
  intros Hi. unfold contact_count. rewrite same_bots, bot_number by auto. destruct Hst as ((bm & ba & bo & bh & E) & _ & B).
  destruct (Nat.ltb_spec i (n_bots st)) as [Hb|Hb]; [now rewrite (proj1 (B i Hb))|]. now rewrite E.
Qed.
Lemma affinity_turned i j : (i < n)%nat -> (j < n)%nat -> affinity (a:=RA) lm ops st' l' (sg i) (sg j) = affinity (a:=RA) lm ops st l i j.
Proof using Hsg Hst HA.
  intros Hi Hj. unfold affinity. rewrite (HA i Hi), (HA j Hj), (homophily_turned i Hi).
  replace (sg j =? sg i)%nat with (j =? i)%nat; auto.
  destruct (Nat.eqb_spec j i) as [->|Hne]; symmetry; [apply Nat.eqb_refl|]. apply Nat.eqb_neq. intros E. apply Hne. now apply (proj2 Hsg).
Qed.
Lemma total_turned i : (i < n)%nat -> total_affinity (a:=RA) lm ops st' l' (sg i) = total_affinity (a:=RA) lm ops st l i.
Proof using A HA Hl Hl' Hsg Hst l l' lm n ops sg st st'.
  intros Hi. rewrite !total_affinity_R, Hl, Hl'. apply (reindex n sg Hsg). intros j Hj. now apply affinity_turned.
Qed.
Lemma probability_turned i j : (i < n)%nat -> (j < n)%nat -> contact_probability (a:=RA) lm ops st' l' (sg i) (sg j) = contact_probability (a:=RA) lm ops st l i j.
Proof using A HA Hl Hl' Hsg Hst l l' lm n ops sg st st'.
  intros Hi Hj. unfold contact_probability. rewrite (HA i Hi), (count_turned i Hi). unfold share. rewrite (affinity_turned i j Hi Hj), (total_turned i Hi). reflexivity.
Qed.
Lemma weight_turned i j : (i < n)%nat -> (j < n)%nat ->
  mean_weight (a:=RA) (reciprocity st') (contact_probability (a:=RA) lm ops st' l') (sg i) (sg j) =
  mean_weight (a:=RA) (reciprocity st) (contact_probability (a:=RA) lm ops st l) i j.
Proof using A HA Hl Hl' Hsg Hst l l' lm n ops sg st st'.
  intros Hi Hj. eapply eq_trans; [apply C45_weight_formula|]. symmetry. eapply eq_trans; [apply C45_weight_formula|].
  rewrite !probability_turned by auto. destruct Hst as ((bm & ba & bo & bh & E) & _). rewrite E. reflexivity.
Qed.

Variables (h h' : network A (F RA)).
Hypothesis Hh : mean_network (a:=RA) lm ops st l h.
Hypothesis Hh' : mean_network (a:=RA) lm ops st' l' h'.
Hypothesis Ha : agents h = l.
Hypothesis Ha' : agents h' = l'.

Lemma rows_turned i : (i < n)%nat -> Permutation (row h' (sg i)) (map (fun p : nat * R => (sg (fst p), snd p)) (row h i)).
Proof using Hsg Hst HA Hl Hl' Hh Hh'.
  intros Hi. pose proof (proj1 Hsg i Hi) as Hs. destruct Hh as (_ & _ & Hr), Hh' as (_ & _ & Hr').
  rewrite Hl in Hr. rewrite Hl' in Hr'. rewrite (Hr i Hi), (Hr' (sg i) Hs), map_map. cbn [fst snd].
  set (w' := fun j => (j, mean_weight (a:=RA) (reciprocity st') (contact_probability (a:=RA) lm ops st' l') (sg i) j)).
  transitivity (map w' (map sg (seq 0 n))).
  - apply Permutation_map. symmetry. now apply renumbering_perm.
  - rewrite map_map. match goal with |- Permutation ?u ?v => replace u with v; [apply Permutation_refl|] end.
    apply map_ext_in. intros j Hj. apply in_seq in Hj. unfold w'. symmetry. apply (f_equal (pair (sg j))). apply weight_turned; lia.
Qed.

Lemma row_bound i p : (i < n)%nat -> In p (row h i) -> (fst p < n)%nat.
Proof using A Hh Hl Hl' h l l' lm n ops st.
  intros Hi Hp. destruct Hh as (_ & _ & Hr). rewrite Hl in Hr. rewrite (Hr i Hi) in Hp. apply in_map_iff in Hp as (j & <- & Hj). apply in_seq in Hj. cbn. lia.
Qed.

Lemma field_turned xs xs' : turned_list n sg xs xs' -> turned_list n sg (field (a:=RA) lm ops st h xs) (field (a:=RA) lm ops st' h' xs').
Proof using Hsg Hst HA Hl Hl' Hh Hh' Ha Ha'.
  intros (A1 & A2 & A3). unfold field. unfold n_agents. rewrite Ha, Ha', Hl, Hl'.
  split; [now rewrite map_length, seq_length|]. split; [now rewrite map_length, seq_length|].
  intros i Hi. pose proof (proj1 Hsg i Hi) as Hs.
  eapply eq_trans; [apply nth_map_seq; exact Hs|]. eapply eq_trans; [|symmetry; apply nth_map_seq; exact Hi]. cbv beta.
  rewrite (HA i Hi). destruct (nth_error l i) as [x|]; auto.
  eapply eq_trans; [apply slope_R|]. eapply eq_trans; [|symmetry; apply slope_R]. rewrite (A3 i Hi).
  assert (EK : K st' = K st /\ alpha st' = alpha st) by (destruct Hst as ((bm & ba & bo & bh & E) & _); rewrite E; split; reflexivity).
  destruct EK as [-> ->]. f_equal. f_equal.
  rewrite (Rsum_perm _ _ (Permutation_map _ (rows_turned i Hi))), map_map. apply Rsum_map_ext. intros p Hp. cbn [fst snd].
  rewrite (A3 (fst p) (row_bound i p Hi Hp)). reflexivity.
Qed.
End Mean.
