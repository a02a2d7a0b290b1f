(** Proofs: A-Res draws successively, proportionally to the weights, without replacement. *)
From Verif Require Import Base BaseFacts Arith64 MRandom SRandom PRandom RFacts PReservoir SProb PProb PProb5 PProb6.
From Coq Require Import Permutation Reals Lra Sorted.
From Coquelicot Require Import Coquelicot.
Local Open Scope R_scope.

Lemma sexpects_lin n : forall f g v v' c d, sexpects n f v -> sexpects n g v' -> sexpects n (fun us => c * f us + d * g us) (c * v + d * v').
Proof.
  induction n as [|n IH]; intros f g v v' c d E E'; cbn in *; [subst; reflexivity|].
  destruct E as (h & H1 & H2), E' as (h' & H1' & H2').
  exists (fun u => c * h u + d * h' u). split.
  - intros u Hu. apply IH; [apply H1|apply H1']; auto.
  - apply (is_RInt_plus (V:=R_NormedModule)); now apply (is_RInt_scal (V:=R_NormedModule)).
Qed.

Definition rsum {A} (f : A -> R) (l : list A) : R := fold_right (fun x s => f x + s) 0 l.
Lemma rsum_app {A} (f : A -> R) l1 l2 : rsum f (l1 ++ l2) = rsum f l1 + rsum f l2.
Proof. unfold rsum. induction l1 as [|x l IH]; cbn; [ring|]. rewrite IH. ring. Qed.
Lemma rsum_flat {A B} (f : B -> R) (g : A -> list B) l : rsum f (flat_map g l) = rsum (fun x => rsum f (g x)) l.
Proof. induction l as [|x l IH]; [reflexivity|]. cbn [flat_map]. rewrite rsum_app, IH. reflexivity. Qed.
Lemma rsum_map {A B} (f : B -> R) (g : A -> B) l : rsum f (map g l) = rsum (fun x => f (g x)) l.
Proof. induction l as [|x l IH]; [reflexivity|]. unfold rsum in *. cbn. now rewrite IH. Qed.
Lemma rsum_ext {A} (f g : A -> R) l : (forall x, In x l -> f x = g x) -> rsum f l = rsum g l.
Proof. induction l as [|x l IH]; intros H; [reflexivity|]. unfold rsum in *. cbn. rewrite (H x (or_introl eq_refl)). f_equal. apply IH. intros; apply H; now right. Qed.
Lemma rsum_scal {A} c (f : A -> R) l : rsum (fun x => c * f x) l = c * rsum f l.
Proof. induction l as [|x l IH]; cbn; [ring|]. unfold rsum in IH. rewrite IH. ring. Qed.
Lemma sexpects_rsum {A} n (f : A -> list R -> R) (v : A -> R) l : (forall x, In x l -> sexpects n (f x) (v x)) ->
  sexpects n (fun us => rsum (fun x => f x us) l) (rsum v l).
Proof.
  induction l as [|x l IH]; intros H; cbn; [apply sexpects_const|].
  apply (sexpects_ext _ _ (fun us => 1 * f x us + 1 * rsum (fun x => f x us) l)); [intros; unfold rsum; ring|].
  replace (v x + fold_right (fun x s => v x + s) 0 l) with (1 * v x + 1 * rsum v l) by (unfold rsum; ring).
  apply sexpects_lin; [apply H; now left|apply IH; intros; apply H; now right].
Qed.

(** ** All orders of a list *)
Fixpoint sel (l : list nat) : list (nat * list nat) :=
  match l with [] => [] | x :: t => (x, t) :: map (fun p => (fst p, x :: snd p)) (sel t) end.
Fixpoint orders (n : nat) (l : list nat) : list (list nat) :=
  match n with O => [] :: nil | S n' => flat_map (fun p => map (cons (fst p)) (orders n' (snd p))) (sel l) end.
Lemma sel_perm l : forall p, In p (sel l) -> Permutation (fst p :: snd p) l.
Proof.
  induction l as [|x t IH]; intros p H; [destruct H|]. cbn in H. destruct H as [<-|H]; [reflexivity|].
  apply in_map_iff in H as ([y r] & <- & H). cbn [fst snd]. specialize (IH _ H). cbn [fst snd] in IH.
  eapply Permutation_trans; [apply perm_swap|]. now constructor.
Qed.
Lemma orders_perm n : forall l s, length l = n -> In s (orders n l) -> Permutation s l.
Proof.
  induction n as [|n IH]; intros l s HL H; cbn in H.
  - destruct H as [<-|[]]. destruct l; [reflexivity|discriminate].
  - apply in_flat_map in H as ([x r] & H1 & H2). cbn in H2. apply in_map_iff in H2 as (s' & <- & H2).
    pose proof (sel_perm _ _ H1) as P. cbn in P. assert (HR : length r = n) by (apply Permutation_length in P; cbn in P; lia).
    eapply Permutation_trans; [apply perm_skip; apply (IH r s' HR H2)|exact P].
Qed.

Section Law.
Variable w : nat -> R.
Notation wl := (wl w). Notation pl := (pl w). Notation posw := (posw w).
Lemma wl_perm l l' : Permutation l l' -> wl l = wl l'.
Proof using. induction 1; cbn; lra. Qed.
Lemma sel_sum l : rsum (fun p => w (fst p)) (sel l) = wl l.
Proof using. induction l as [|x t IH]; [reflexivity|]. cbn [sel]. change (w x + rsum (fun p => w (fst p)) (map (fun p => (fst p, x :: snd p)) (sel t)) = w x + wl t).
  rewrite rsum_map. cbn [fst]. now rewrite IH. Qed.
Lemma wl_pos l : posw l -> l <> [] -> 0 < wl l.
Proof using. destruct l as [|x t]; [congruence|]. intros H _. cbn. pose proof (Forall_inv H). pose proof (wl_ge0 w t (Forall_inv_tail H)). cbn beta in *. lra. Qed.
Lemma posw_perm l l' : Permutation l l' -> posw l -> posw l'.
Proof using. intros P H. apply List.Forall_forall. intros j Hj. eapply List.Forall_forall in H; [exact H|]. eapply Permutation_in; [apply Permutation_sym; exact P|exact Hj]. Qed.

Lemma orders_sum n : forall l, length l = n -> posw l -> rsum pl (orders n l) = 1.
Proof using.
  induction n as [|n IH]; intros l HL HP; cbn [orders]; [cbn; ring|].
  rewrite rsum_flat. rewrite (rsum_ext _ (fun p => / wl l * w (fst p))).
  - rewrite rsum_scal, sel_sum. apply Rinv_l. apply Rgt_not_eq, wl_pos; auto. now intros ->.
  - intros [x r] H. cbn [fst snd]. rewrite rsum_map. pose proof (sel_perm _ _ H) as P. cbn in P.
    assert (HR : length r = n) by (apply Permutation_length in P; cbn in P; lia).
    assert (HPr : posw r) by (apply (Forall_inv_tail (a:=x)); apply (posw_perm l); [apply Permutation_sym; exact P|exact HP]).
    rewrite (rsum_ext _ (fun s => w x / wl l * pl s)).
    + rewrite rsum_scal, (IH r HR HPr). unfold Rdiv. ring.
    + intros s Hs. change (pl (x :: s)) with (w x / wl (x :: s) * pl s). do 2 f_equal. apply wl_perm.
      eapply Permutation_trans; [apply perm_skip; apply (orders_perm n r s HR Hs)|exact P].
Qed.

(** ** The order of given distinct keys *)
Section Keys.
Variable key : nat -> R.
Fixpoint all_lt (l : list nat) (b : R) : bool := match l with [] => true | x :: t => (if Rlt_dec (key x) b then true else false) && all_lt t b end.
Definition b2r (b : bool) : R := if b then 1 else 0.
Definition distinct_on (l : list nat) : Prop := forall i j, In i l -> In j l -> i <> j -> key i <> key j.

Lemma all_lt_spec l b : all_lt l b = true <-> forall x, In x l -> key x < b.
Proof using.
  induction l as [|y t IH]; cbn; [split; auto; intros _ x []|]. destruct (Rlt_dec (key y) b) as [L|L]; cbn.
  - rewrite IH. split; [intros H x [->|Hx]; auto|intros H x Hx; apply H; auto].
  - split; [discriminate|]. intros H. exfalso. apply L, H. auto.
Qed.
Lemma all_lt_not l b : all_lt l b = false <-> exists x, In x l /\ b <= key x.
Proof using.
  induction l as [|y t IH]; cbn; [split; [discriminate|intros (x & [] & _)]|]. destruct (Rlt_dec (key y) b) as [L|L]; cbn.
  - rewrite IH. split; [intros (x & Hx & H); eauto|intros (x & [->|Hx] & H); [lra|eauto]].
  - split; auto. intros _. exists y. split; auto. lra.
Qed.

Definition pick (c b : R) (p : nat * list nat) : R :=
  b2r (all_lt (snd p) (key (fst p))) * (if Rlt_dec c (key (fst p)) then if Rlt_dec (key (fst p)) b then 1 else 0 else 0).
Lemma sel_pick t : NoDup t -> distinct_on t -> forall c b, (forall x, In x t -> key x <> c) ->
  rsum (pick c b) (sel t) = if all_lt t b && negb (all_lt t c) then 1 else 0.
Proof using.
  induction t as [|y t IH]; intros ND HD c b Hc; [reflexivity|].
  apply NoDup_cons_iff in ND as [Ny ND]. cbn [sel].
  change (pick c b (y, t) + rsum (pick c b) (map (fun p => (fst p, y :: snd p)) (sel t)) = if all_lt (y :: t) b && negb (all_lt (y :: t) c) then 1 else 0).
  rewrite rsum_map.
  rewrite (rsum_ext _ (pick (Rmax c (key y)) b)).
  2:{ intros [x r] _. unfold pick. cbn [fst snd all_lt]. destruct (Rlt_dec (key y) (key x)) as [L|L]; cbn [andb].
      - destruct (Rlt_dec c (key x)) as [L2|L2]; destruct (Rlt_dec (Rmax c (key y)) (key x)) as [L3|L3]; auto.
        + exfalso. apply L3. now apply Rmax_lub_lt.
        + exfalso. apply L2. eapply Rle_lt_trans; [apply Rmax_l|exact L3].
      - destruct (Rlt_dec (Rmax c (key y)) (key x)) as [L3|L3].
        + exfalso. apply L. eapply Rle_lt_trans; [apply Rmax_r|exact L3].
        + cbn [b2r]. ring. }
  rewrite (IH ND).
  2:{ intros i j Hi Hj. apply HD; now right. }
  2:{ intros x Hx. unfold Rmax. destruct (Rle_dec c (key y)); [|apply Hc; now right]. apply HD; [now right|now left|]. intros ->. contradiction. }
  unfold pick. cbn [fst snd all_lt].
  assert (Hyc : key y <> c) by (apply Hc; now left).
  destruct (Rlt_dec (key y) c) as [L|L].
  - destruct (Rlt_dec c (key y)); [lra|]. rewrite Rmax_left by lra. cbn [andb].
    destruct (all_lt t c) eqn:Ec; cbn [negb]; rewrite ?andb_false_r; [cbn; ring|]. rewrite !andb_true_r.
    destruct (all_lt t b) eqn:Eb; [|rewrite andb_false_r; cbn; ring].
    apply all_lt_not in Ec as (x & Hx & Ec). rewrite all_lt_spec in Eb. specialize (Eb x Hx).
    destruct (Rlt_dec (key y) b); [cbn; ring|lra].
  - destruct (Rlt_dec c (key y)); [|lra]. rewrite Rmax_right by lra. cbn [andb negb]. rewrite andb_true_r.
    destruct (all_lt t (key y)) eqn:Ey; cbn [negb b2r].
    + rewrite andb_false_r. destruct (Rlt_dec (key y) b); cbn [andb]; [|ring].
      assert (Eb : all_lt t b = true). { rewrite all_lt_spec in *. intros x Hx. specialize (Ey x Hx). lra. }
      rewrite Eb. ring.
    + rewrite andb_true_r. apply all_lt_not in Ey as (x & Hx & Ey).
      destruct (all_lt t b) eqn:Eb; [|rewrite andb_false_r; ring].
      rewrite all_lt_spec in Eb. specialize (Eb x Hx). destruct (Rlt_dec (key y) b); [cbn; ring|lra].
Qed.
End Keys.
End Law.
