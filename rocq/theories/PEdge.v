(** The probability of an edge of the stochastic contact network. *)
From Verif Require PNetRun.
From Verif Require Import Base BaseFacts Arith64 MNetwork SNetwork MAgents MRandom MActivity SActivity PActNet PActThm SProb SProb2 PProb9 SLaw PLaw PLaw2 PLaw6 PVote SEquiv TEquiv PRelabel PNetNumber SEdge.
From Coq Require Import Permutation Reals Lra.
Local Open Scope R_scope.

Lemma total_remove (w : nat -> R) i l : NoDup l -> In i l -> total w (remove Nat.eq_dec i l) = total w l - w i.
Proof.
  unfold total. induction l as [|x l IH]; intros HN Hi; [destruct Hi|]. apply NoDup_cons_iff in HN as (Hx & HN). cbn [remove fold_right].
  destruct (Nat.eq_dec i x) as [->|Hne].
  - rewrite notin_remove by auto. lra.
  - cbn [fold_right]. destruct Hi as [->|Hi]; [congruence|]. rewrite IH by auto. lra.
Qed.
Lemma length_remove i l : NoDup l -> In i l -> length l = S (length (remove Nat.eq_dec i l)).
Proof.
  induction l as [|x l IH]; intros HN Hi; [destruct Hi|]. apply NoDup_cons_iff in HN as (Hx & HN). cbn [remove].
  destruct (Nat.eq_dec i x) as [->|Hne].
  - rewrite notin_remove by auto. reflexivity.
  - cbn [length]. destruct Hi as [->|Hi]; [congruence|]. now rewrite <- IH.
Qed.
Lemma NoDup_rem i l : NoDup l -> NoDup (remove Nat.eq_dec i l).
Proof.
  induction l as [|x l IH]; intros HN; [constructor|]. apply NoDup_cons_iff in HN as (Hx & HN). cbn [remove]. destruct (Nat.eq_dec i x); auto.
  constructor; auto. intros H. apply in_remove in H. now apply Hx.
Qed.
Lemma total_pos_one (w : nat -> R) l i : (forall j, In j l -> 0 <= w j) -> In i l -> w i <= total w l.
Proof.
  unfold total. induction l as [|x l IH]; intros Hw Hi; [destruct Hi|]. cbn [fold_right].
  assert (H0 : 0 <= fold_right (fun x s => w x + s) 0 l).
  { clear IH Hi. assert (Hw' : forall j, In j l -> 0 <= w j) by (intros j Hj; apply Hw; now right). clear Hw. induction l as [|y l IH]; cbn [fold_right]; [lra|].
    pose proof (Hw' y (or_introl eq_refl)). enough (0 <= fold_right (fun x s => w x + s) 0 l) by lra. apply IH. intros j Hj. apply Hw'. now right. }
  destruct Hi as [->|Hi]; [lra|]. specialize (IH (fun j Hj => Hw j (or_intror Hj)) Hi). pose proof (Hw x (or_introl eq_refl)). lra.
Qed.
(** The probabilities of the arrangements add up to one. *)
Lemma successive_total (w : nat -> R) z k : forall l, NoDup l -> In z l -> w z = 0 -> (forall j, In j l -> j <> z -> 0 < w j) -> (k < length l)%nat ->
  total (fun L => successive w L (total w l)) (arrangements k l) = 1.
Proof.
  induction k as [|k IH]; intros l HN Hz Ez Hw Hk.
  - cbn [arrangements]. unfold total. cbn [fold_right successive]. lra.
  - cbn [arrangements]. rewrite total_flat.
    assert (Hw0 : forall j, In j l -> 0 <= w j). { intros j Hj. destruct (Nat.eq_dec j z) as [->|]; [lra|]. left. auto. }
    assert (HW : 0 < total w l).
    { assert (exists y, In y l /\ y <> z) as (y & Hy & Hne).
      { destruct l as [|x [|y l]]; cbn [length] in Hk; try lia. destruct (Nat.eq_dec x z) as [->|]; [|exists x; split; [now left|auto]].
        exists y. split; [right; now left|]. intros ->. apply NoDup_cons_iff in HN as (H & _). apply H. now left. }
      eapply Rlt_le_trans; [apply (Hw y Hy Hne)|]. now apply total_pos_one. }
    transitivity (total (fun i => w i / total w l) l).
    + apply total_ext. intros i Hi. rewrite total_map. cbn [successive]. rewrite <- total_scale.
      destruct (Nat.eq_dec i z) as [->|Hne]; [rewrite Ez; unfold Rdiv; ring|].
      rewrite <- total_remove by auto. rewrite IH; try lra.
      * now apply NoDup_rem.
      * apply in_in_remove; auto.
      * intros j Hj. apply in_remove in Hj as (Hj & _). auto.
      * pose proof (length_remove i l HN Hi). lia.
    + transitivity (total (fun i => / total w l * w i) l); [apply total_ext; intros; unfold Rdiv; ring|]. rewrite <- total_scale. field. lra.
Qed.

(** ** Product laws: only the possible results matter *)
Section Keys.
Context {X : Type} (d : X).
Lemma over_keys_supp (Q : nat -> list (X * R)) ks : forall F G,
  (forall h, (forall k, In k ks -> exists p, In (h k, p) (Q k)) -> (forall k, ~ In k ks -> h k = d) -> F h = G h) -> over_keys d Q ks F = over_keys d Q ks G.
Proof using.
  induction ks as [|k ks IH]; intros F G H; cbn [over_keys].
  - apply H; [intros k []|auto].
  - apply total_ext. intros [x p] Hx. cbn [fst snd]. f_equal. apply IH. intros h Hin Hout. apply H.
    + intros k' Hk. unfold put. destruct (Nat.eqb_spec k' k) as [->|Hne]; [eauto|]. destruct Hk as [->|Hk]; [congruence|]. auto.
    + intros k' Hk. unfold put. destruct (Nat.eqb_spec k' k) as [->|Hne]; [exfalso; apply Hk; now left|]. apply Hout. intros H'. apply Hk. now right.
Qed.
Lemma over_keys_const (Q : nat -> list (X * R)) ks c : (forall k, In k ks -> total snd (Q k) = 1) -> over_keys d Q ks (fun _ => c) = c.
Proof using.
  induction ks as [|k ks IH]; intros H; cbn [over_keys]; auto. rewrite IH by (intros; apply H; now right).
  transitivity (total (fun xp : X * R => c * snd xp) (Q k)); [apply total_ext; intros; ring|]. rewrite <- total_scale. rewrite H by now left. ring.
Qed.
(** The expectation of a function of two independent results. *)
Lemma over_keys_two (Q : nat -> list (X * R)) ks i j (g : X -> X -> R) : NoDup ks -> In i ks -> In j ks -> i <> j ->
  (forall k, In k ks -> total snd (Q k) = 1) ->
  over_keys d Q ks (fun h => g (h i) (h j)) = total (fun xp => snd xp * total (fun yp => snd yp * g (fst xp) (fst yp)) (Q j)) (Q i).
Proof using.
  intros HN Hi Hj Hne H1.
  set (ks' := i :: j :: remove Nat.eq_dec j (remove Nat.eq_dec i ks)).
  assert (HN' : NoDup ks').
  { constructor; [|constructor].
    - intros [E|E]; [congruence|]. apply in_remove in E as (E & _). now apply remove_In in E.
    - apply remove_In.
    - now apply NoDup_rem, NoDup_rem. }
  assert (HP : Permutation ks ks').
  { apply NoDup_Permutation; auto. intros k. split; intros Hk.
    - destruct (Nat.eq_dec k i) as [->|]; [now left|]. destruct (Nat.eq_dec k j) as [->|]; [right; now left|]. right; right. now apply in_in_remove, in_in_remove.
    - destruct Hk as [<-|[<-|Hk]]; auto. apply in_remove in Hk as (Hk & _). now apply in_remove in Hk. }
  rewrite (over_keys_perm d Q ks ks' HP HN). unfold ks'. cbn [over_keys]. apply total_ext. intros xp _. f_equal. apply total_ext. intros yp _. f_equal.
  transitivity (over_keys d Q (remove Nat.eq_dec j (remove Nat.eq_dec i ks)) (fun _ => g (fst xp) (fst yp))).
  - apply over_keys_ext. intros h. unfold put. rewrite !Nat.eqb_refl. apply Nat.eqb_neq in Hne. rewrite Nat.eqb_sym in Hne. now rewrite Hne.
  - apply over_keys_const. intros k Hk. apply H1. apply in_remove in Hk as (Hk & _). now apply in_remove in Hk.
Qed.
End Keys.

(** ** Coins *)
Definition listed (p : nat * nat) (l : list (nat * nat)) : bool := existsb (fun q => (fst q =? fst p)%nat && (snd q =? snd p)%nat) l.
Lemma listed_in p l : listed p l = true <-> In p l.
Proof.
  unfold listed. rewrite existsb_exists. split.
  - intros ([x y] & Hx & E). apply andb_prop in E as (E1 & E2). apply Nat.eqb_eq in E1, E2. destruct p as [u v]. cbn in *. now subst.
  - intros H. exists p. now rewrite !Nat.eqb_refl.
Qed.
Lemma over_coins_const {X} r (l : list X) c : over_coins r l (fun _ => c) = c.
Proof. induction l as [|x l IH]; cbn [over_coins]; auto. rewrite IH. ring. Qed.
Lemma over_coins_one r (l : list (nat * nat)) p : NoDup l ->
  over_coins r l (fun sel => if listed p sel then 1 else 0) = if listed p l then r else 0.
Proof.
  induction l as [|x l IH]; intros HN; [reflexivity|]. apply NoDup_cons_iff in HN as (Hx & HN). cbn [over_coins].
  rewrite IH by auto. destruct ((fst x =? fst p)%nat && (snd x =? snd p)%nat)%bool eqn:E.
  - assert (x = p). { apply andb_prop in E as (E1 & E2). apply Nat.eqb_eq in E1, E2. destruct x, p; cbn in *; congruence. } subst x.
    assert (En : listed p l = false). { destruct (listed p l) eqn:El; auto. apply listed_in in El. contradiction. }
    rewrite En. unfold listed at 2. cbn [existsb]. rewrite E. cbn [orb].
    transitivity (r * over_coins r l (fun _ => 1) + (1 - r) * 0); [|rewrite over_coins_const; ring]. f_equal. f_equal. apply over_coins_ext. intros s. unfold listed. cbn [existsb]. now rewrite E.
  - unfold listed at 3. cbn [existsb]. rewrite E. cbn [orb]. fold (listed p l).
    assert (E2 : over_coins r l (fun sel => if listed p (x :: sel) then 1 else 0) = over_coins r l (fun sel => if listed p sel then 1 else 0)).
    { apply over_coins_ext. intros s. unfold listed. cbn [existsb]. now rewrite E. }
    rewrite E2, IH by auto. ring.
Qed.

(** ** The network drawn *)
Lemma row_law_total act w k n z : (z < n)%nat -> w z = 0 -> (forall j, (j < n)%nat -> j <> z -> 0 < w j) -> (k < n)%nat -> total snd (SProb2.row_law act w k n) = 1.
Proof.
  intros Hz Ez Hw Hk. unfold SProb2.row_law. change (1 - act + total snd (map (fun L => (rev L, act * successive w L (wsum w 0 n))) (arrangements k (seq 0 n))) = 1).
  rewrite total_map. cbn [snd]. rewrite <- total_scale, (wsum_total w n 0).
  rewrite (successive_total w z k (seq 0 n)); [ring|apply seq_NoDup|apply in_seq; lia|auto| |now rewrite seq_length].
  intros j Hj. apply in_seq in Hj. apply Hw. lia.
Qed.
Definition chosen (j : nat) (l : list nat) : R := if in_dec Nat.eq_dec j l then 1 else 0.
Lemma row_law_chosen act w k n j : total (fun xp => snd xp * chosen j (fst xp)) (SProb2.row_law act w k n) = act * drawn_chance w k n j.
Proof.
  unfold SProb2.row_law. change ((1 - act) * 0 + total (fun xp => snd xp * chosen j (fst xp)) (map (fun L => (rev L, act * successive w L (wsum w 0 n))) (arrangements k (seq 0 n))) = act * drawn_chance w k n j).
  rewrite total_map. cbn [fst snd]. unfold drawn_chance. rewrite total_scale, Rmult_0_r, Rplus_0_l. apply total_ext. intros L _. rewrite (wsum_total w n 0). unfold chosen.
  destruct (in_dec Nat.eq_dec j (rev L)) as [H|H], (in_dec Nat.eq_dec j L) as [H'|H']; try ring; exfalso; rewrite <- in_rev in H; auto.
Qed.
Lemma row_law_valid act w k n x p : In (x, p) (SProb2.row_law act w k n) -> valid n x.
Proof.
  unfold SProb2.row_law. intros [E|H].
  - injection E as <- _. split; constructor.
  - apply in_map_iff in H as (L & E & HL). injection E as <- _. apply in_arrangements in HL as (_ & HN & Hi). split; [now apply NoDup_rev|].
    apply Forall_forall. intros j Hj. apply in_rev in Hj. apply Hi in Hj. apply in_seq in Hj. lia.
Qed.
Lemma contacted_chosen cs i j : (if contacted cs i j then 1 else 0) = chosen j (nth i cs []).
Proof.
  unfold contacted, chosen. destruct (in_dec Nat.eq_dec j (nth i cs [])) as [H|H]; destruct (existsb (Nat.eqb j) (nth i cs [])) eqn:E; auto; exfalso.
  - assert (existsb (Nat.eqb j) (nth i cs []) = true); [|congruence]. apply existsb_exists. exists j. now rewrite Nat.eqb_refl.
  - apply existsb_exists in E as (y & Hy & Ey). apply Nat.eqb_eq in Ey. now subst.
Qed.
Lemma listed_rev p l : listed p (map reversed l) = listed (reversed p) l.
Proof. unfold listed. induction l as [|x l IH]; [reflexivity|]. cbn [map existsb]. rewrite IH. destruct x, p. unfold reversed. cbn [fst snd]. now rewrite andb_comm. Qed.
Lemma edge_given (cs : list (list nat)) n i j r : length cs = n -> Forall (valid n) cs -> (i < n)%nat -> (j < n)%nat ->
  over_coins r (one_way cs) (fun sel => if listed (i, j) (contact_pairs cs ++ map reversed sel) then 1 else 0) =
  chosen j (nth i cs []) + (1 - chosen j (nth i cs [])) * r * chosen i (nth j cs []).
Proof.
  intros HL HV Hi Hj.
  assert (HP : forall u v, (u < n)%nat -> listed (u, v) (contact_pairs cs) = contacted cs u v).
  { intros u v Hu. apply Bool.eq_iff_eq_true. rewrite listed_in, in_contact_pairs. unfold contacted. rewrite existsb_exists. split.
    - intros (_ & H). exists v. now rewrite Nat.eqb_refl.
    - intros (y & Hy & Ey). apply Nat.eqb_eq in Ey. subst y. split; [lia|auto]. }
  rewrite <- !contacted_chosen. destruct (contacted cs i j) eqn:E.
  - transitivity (over_coins r (one_way cs) (fun _ => 1)); [|rewrite over_coins_const; ring]. apply over_coins_ext. intros s.
    unfold listed. rewrite existsb_app. fold (listed (i, j) (contact_pairs cs)). rewrite HP, E by auto. reflexivity.
  - transitivity (over_coins r (one_way cs) (fun sel => if listed (j, i) sel then 1 else 0)).
    { apply over_coins_ext. intros s. unfold listed at 1. rewrite existsb_app. fold (listed (i, j) (contact_pairs cs)). rewrite HP, E by auto. cbn [orb].
      fold (listed (i, j) (map reversed s)). now rewrite listed_rev. }
    rewrite over_coins_one. 2:{ apply NoDup_filter. eapply contact_pairs_NoDup; eauto. }
    replace (listed (j, i) (one_way cs)) with (contacted cs j i); [destruct (contacted cs j i); ring|].
    apply Bool.eq_iff_eq_true. rewrite listed_in. unfold one_way. rewrite filter_In. cbn [fst snd]. rewrite E, <- listed_in, HP by auto. cbn [negb]. tauto.
Qed.

Theorem edge_law (act : nat -> R) (w : nat -> nat -> R) (k : nat -> nat) n r i j :
  (forall i, w i i = 0) -> (forall i j, i <> j -> 0 < w i j) -> (forall i, (i < n)%nat -> (k i < n)%nat) -> (i < n)%nat -> (j < n)%nat -> i <> j ->
  over_rows (map (fun i => SProb2.row_law (act i) (w i) (k i) n) (seq 0 n))
    (fun cs => over_coins r (one_way cs) (fun sel => if listed (i, j) (contact_pairs cs ++ map reversed sel) then 1 else 0)) =
  act i * drawn_chance (w i) (k i) n j + (1 - act i * drawn_chance (w i) (k i) n j) * r * (act j * drawn_chance (w j) (k j) n i).
Proof.
  intros Hd Hw Hk Hi Hj Hne. set (Q := fun i => SProb2.row_law (act i) (w i) (k i) n).
  assert (Ht : forall u, (u < n)%nat -> total snd (Q u) = 1).
  { intros u Hu. apply row_law_total with (z := u); auto. }
  rewrite (over_rows_keys [] Q (seq 0 n) (seq_NoDup n 0)).
  rewrite (over_keys_supp [] Q (seq 0 n) _ (fun h => chosen j (h i) + (1 - chosen j (h i)) * r * chosen i (h j))).
  - rewrite (over_keys_two [] Q (seq 0 n) i j (fun x y => chosen j x + (1 - chosen j x) * r * chosen i y)); auto using seq_NoDup; try (apply in_seq; lia).
    2:{ intros u Hu. apply in_seq in Hu. apply Ht. lia. }
    transitivity (total (fun xp : list nat * R => (1 - r * (act j * drawn_chance (w j) (k j) n i)) * (snd xp * chosen j (fst xp)) + (r * (act j * drawn_chance (w j) (k j) n i)) * snd xp) (Q i)).
    + apply total_ext. intros xp _.
      transitivity (snd xp * (total (fun yp : list nat * R => chosen j (fst xp) * snd yp + ((1 - chosen j (fst xp)) * r) * (snd yp * chosen i (fst yp))) (Q j))).
      { f_equal. apply total_ext. intros yp _. ring. }
      rewrite total_lin, Ht by auto. unfold Q at 1. rewrite row_law_chosen. ring.
    + rewrite total_lin, Ht by auto. unfold Q at 1. rewrite row_law_chosen. ring.
  - intros h Hs _.
    assert (Hn : forall u, (u < n)%nat -> nth u (map h (seq 0 n)) [] = h u).
    { intros u Hu. apply nth_map_seq_in. exact Hu. }
    rewrite <- (Hn i Hi), <- (Hn j Hj). apply (edge_given _ n); auto.
    + now rewrite map_length, seq_length.
    + apply Forall_forall. intros x Hx. apply in_map_iff in Hx as (u & <- & Hu). destruct (Hs u Hu) as (p & Hp). eapply row_law_valid; eauto.
Qed.

(** ** One contact *)
Lemma drawn_once w n j : (j < n)%nat -> drawn_chance w 1 n j = w j / total w (seq 0 n).
Proof.
  intros Hj. unfold drawn_chance. cbn [arrangements]. rewrite total_flat.
  transitivity (total (fun i => if (i =? j)%nat then w i / total w (seq 0 n) else 0) (seq 0 n)).
  - apply total_ext. intros i _. cbn [map]. unfold total at 1. cbn [fold_right successive]. destruct (in_dec Nat.eq_dec j [i]) as [[->|[]]|H].
    + rewrite Nat.eqb_refl. lra.
    + destruct (Nat.eqb_spec i j) as [->|]; [exfalso; apply H; now left|]. lra.
  - rewrite PNetRun.total_pick. destruct (Nat.leb_spec 0 j), (Nat.ltb_spec j (0 + n)); cbn [andb]; auto; lia.
Qed.

(** ** Equal weights *)
Lemma chance_first (w : nat -> R) z k l j : NoDup l -> In z l -> w z = 0 -> (forall i, In i l -> i <> z -> 0 < w i) -> (S k < length l)%nat -> In j l -> j <> z ->
  total (fun L => if in_dec Nat.eq_dec j L then successive w L (total w l) else 0) (arrangements (S k) l) =
  total (fun i => w i / total w l * (if (i =? j)%nat then 1 else
    total (fun L => if in_dec Nat.eq_dec j L then successive w L (total w (remove Nat.eq_dec i l)) else 0) (arrangements k (remove Nat.eq_dec i l)))) l.
Proof.
  intros HN Hz Ez Hw Hk Hj Hjz. cbn [arrangements]. rewrite total_flat. apply total_ext. intros i Hi. rewrite total_map.
  destruct (Nat.eqb_spec i j) as [->|Hne].
  - transitivity (w j / total w l * total (fun L => successive w L (total w (remove Nat.eq_dec j l))) (arrangements k (remove Nat.eq_dec j l))).
    + rewrite total_scale. apply total_ext. intros L _. destruct (in_dec Nat.eq_dec j (j :: L)) as [H|H]; [|exfalso; apply H; now left]. cbn [successive]. now rewrite total_remove.
    + rewrite (successive_total w z k); auto.
      * now apply NoDup_rem.
      * apply in_in_remove; auto.
      * intros u Hu. apply in_remove in Hu as (Hu & _). auto.
      * pose proof (length_remove j l HN Hj). lia.
  - rewrite total_scale. apply total_ext. intros L _. rewrite total_remove by auto. cbn [successive].
    destruct (in_dec Nat.eq_dec j (i :: L)) as [H|H], (in_dec Nat.eq_dec j L) as [H'|H']; try ring; exfalso.
    + destruct H as [H|H]; congruence.
    + apply H. now right.
Qed.
Lemma chance_equal (w : nat -> R) c z j k : 0 < c -> w z = 0 -> j <> z -> forall l, NoDup l -> In z l -> In j l -> (forall i, In i l -> i <> z -> w i = c) -> (k < length l)%nat ->
  total (fun L => if in_dec Nat.eq_dec j L then successive w L (total w l) else 0) (arrangements k l) = INR k / INR (length l - 1).
Proof.
  intros Hc Ez Hjz. induction k as [|k IH]; intros l HN Hz Hj Hw Hk.
  - cbn [arrangements]. unfold total at 1. cbn [fold_right]. destruct (in_dec Nat.eq_dec j []) as [[]|_]. cbn [INR]. unfold Rdiv. ring.
  - rewrite (chance_first w z k l j); auto. 2:{ intros i Hi Hne. rewrite Hw; auto. }
    assert (ET : total w l = INR (length l - 1) * c).
    { rewrite <- (total_const c (remove Nat.eq_dec z l)) || idtac. pose proof (total_remove w z l HN Hz) as E. rewrite Ez, Rminus_0_r in E. rewrite <- E.
      transitivity (total (fun _ => c) (remove Nat.eq_dec z l)).
      - apply total_ext. intros i Hi. apply in_remove in Hi as (Hi & Hne). auto.
      - rewrite total_const. do 2 f_equal. pose proof (length_remove z l HN Hz). lia. }
    set (m := length l) in *. assert (Hm : (2 <= m)%nat) by lia.
    transitivity (total (fun i => if (i =? z)%nat then 0 else if (i =? j)%nat then / INR (m - 1) else / INR (m - 1) * (INR k / INR (m - 2))) l).
    + apply total_ext. intros i Hi. destruct (Nat.eqb_spec i z) as [->|Hiz]; [rewrite Ez; unfold Rdiv; ring|]. rewrite ET, (Hw i Hi Hiz).
      assert (0 < INR (m - 1)) by (apply lt_0_INR; lia).
      assert (Ec : c / (INR (m - 1) * c) = / INR (m - 1)) by (field; lra). rewrite Ec. destruct (Nat.eqb_spec i j) as [->|Hij]; [ring|]. f_equal.
      pose proof (length_remove i l HN Hi) as EL. fold m in EL.
      rewrite IH; auto.
      * do 2 f_equal. lia.
      * now apply NoDup_rem.
      * apply in_in_remove; auto.
      * apply in_in_remove; auto.
      * intros u Hu. apply in_remove in Hu as (Hu & _). auto.
      * lia.
    + assert (HP : Permutation l (z :: j :: remove Nat.eq_dec j (remove Nat.eq_dec z l))).
      { apply NoDup_Permutation; auto.
        - constructor; [|constructor].
          + intros [E|E]; [congruence|]. apply in_remove in E as (E & _). now apply remove_In in E.
          + apply remove_In.
          + now apply NoDup_rem, NoDup_rem.
        - intros u. split; intros Hu.
          + destruct (Nat.eq_dec u z) as [->|]; [now left|]. destruct (Nat.eq_dec u j) as [->|]; [right; now left|]. right; right. now apply in_in_remove, in_in_remove.
          + destruct Hu as [<-|[<-|Hu]]; auto. apply in_remove in Hu as (Hu & _). now apply in_remove in Hu. }
      set (rest := remove Nat.eq_dec j (remove Nat.eq_dec z l)) in *.
      assert (ER : length rest = (m - 2)%nat). { apply Permutation_length in HP. cbn [length] in HP. fold m in HP. lia. }
      rewrite (total_perm _ _ _ HP). unfold total. cbn [fold_right]. rewrite !Nat.eqb_refl. rewrite (proj2 (Nat.eqb_neq j z)) by auto.
      match goal with |- _ + (_ + ?t) = _ => change t with (total (fun i => if (i =? z)%nat then 0 else if (i =? j)%nat then / INR (m - 1) else / INR (m - 1) * (INR k / INR (m - 2))) rest) end.
      transitivity (/ INR (m - 1) + total (fun _ : nat => / INR (m - 1) * (INR k / INR (m - 2))) rest).
      * rewrite Rplus_0_l. f_equal. apply total_ext. intros u Hu. apply in_remove in Hu as (Hu & Huj). apply in_remove in Hu as (Hu & Huz).
        now rewrite (proj2 (Nat.eqb_neq u z)), (proj2 (Nat.eqb_neq u j)).
      * rewrite total_const, ER, S_INR. assert (0 < INR (m - 1)) by (apply lt_0_INR; lia). destruct (Nat.eq_dec m 2) as [E2|N2].
        -- assert (k = 0)%nat by lia. subst k. rewrite E2. cbn. lra.
        -- assert (0 < INR (m - 2)) by (apply lt_0_INR; lia). field. split; lra.
Qed.

(** ** Larger weights are drawn more often *)
Definition swap (j j' i : nat) : nat := if (i =? j)%nat then j' else if (i =? j')%nat then j else i.
Lemma swap_twice j j' i : swap j j' (swap j j' i) = i.
Proof.
  unfold swap. destruct (Nat.eqb_spec i j) as [->|H]; [destruct (Nat.eqb_spec j' j); [congruence|now rewrite Nat.eqb_refl]|].
  destruct (Nat.eqb_spec i j') as [->|H']; [now rewrite Nat.eqb_refl|]. apply Nat.eqb_neq in H, H'. now rewrite H, H'.
Qed.
Lemma swap_id j j' l : ~ In j l -> ~ In j' l -> map (swap j j') l = l.
Proof.
  intros H H'. rewrite <- (map_id l) at 2. apply map_ext_in. intros i Hi. unfold swap.
  destruct (Nat.eqb_spec i j) as [->|]; [contradiction|]. destruct (Nat.eqb_spec i j') as [->|]; [contradiction|]. reflexivity.
Qed.
Lemma swap_renumbering n j j' : (j < n)%nat -> (j' < n)%nat -> renumbering n (swap j j').
Proof.
  intros Hj Hj'. split.
  - intros i Hi. unfold swap. destruct (i =? j)%nat; [auto|]. destruct (i =? j')%nat; auto.
  - intros u v _ _ E. rewrite <- (swap_twice j j' u), <- (swap_twice j j' v). now rewrite E.
Qed.
Lemma swap_notin j j' L : ~ In j' L -> ~ In j (map (swap j j') L).
Proof.
  intros H Hj. apply in_map_iff in Hj as (i & E & Hi). apply H. replace j' with i; auto. rewrite <- (swap_twice j j' i), E. unfold swap. now rewrite Nat.eqb_refl.
Qed.
Lemma swap_in j j' L : In j L -> In j' (map (swap j j') L).
Proof. intros H. apply in_map_iff. exists j. split; auto. unfold swap. now rewrite Nat.eqb_refl. Qed.
(** Replacing an item by a heavier one makes an arrangement more probable. *)
Lemma successive_nonneg (w : nat -> R) L : forall W, NoDup L -> (forall i, In i L -> 0 <= w i) -> total w L <= W -> 0 <= successive w L W.
Proof.
  unfold total. induction L as [|i L IH]; intros W HN Hw HW; cbn [successive]; [lra|]. cbn [fold_right] in HW. apply NoDup_cons_iff in HN as (_ & HN).
  assert (Hi : 0 <= w i) by (apply Hw; now left). assert (H0 : 0 <= total w L). { clear -Hw. unfold total. induction L as [|x L IH]; cbn [fold_right]; [lra|].
    pose proof (Hw x (or_intror (or_introl eq_refl))). enough (0 <= fold_right (fun x s => w x + s) 0 L) by lra. apply IH. intros y [->|Hy]; apply Hw; [now left|right; now right]. }
  unfold total in H0. assert (0 <= successive w L (W - w i)). { apply IH; auto; [|lra]. intros y Hy. apply Hw. now right. }
  apply Rmult_le_pos; auto. unfold Rdiv. destruct (Req_dec (w i) 0) as [->|]; [lra|]. apply Rmult_le_pos; auto. left. apply Rinv_0_lt_compat. lra.
Qed.
Lemma successive_mono (w : nat -> R) L : forall W W', NoDup L -> (forall i, In i L -> 0 <= w i) -> total w L <= W' -> W' <= W -> successive w L W <= successive w L W'.
Proof.
  induction L as [|i L IH]; intros W W' HN Hw HW HWW; cbn [successive]; [lra|]. unfold total in HW. cbn [fold_right] in HW.
  match type of HW with _ + ?t <= _ => change t with (total w L) in HW end.
  apply NoDup_cons_iff in HN as (_ & HN). assert (Hi : 0 <= w i) by (apply Hw; now left).
  assert (Hw' : forall y, In y L -> 0 <= w y) by (intros y Hy; apply Hw; now right).
  assert (H0 : 0 <= successive w L (W - w i)) by (apply successive_nonneg; auto; lra).
  assert (H1 : successive w L (W - w i) <= successive w L (W' - w i)) by (apply IH; auto; lra).
  assert (HT : 0 <= total w L). { clear -Hw'. unfold total. induction L as [|x L IH]; cbn [fold_right]; [lra|].
    pose proof (Hw' x (or_introl eq_refl)). enough (0 <= fold_right (fun x s => w x + s) 0 L) by lra. apply IH. intros y Hy; apply Hw'; now right. }
  destruct (Req_dec (w i) 0) as [->|Hne]; [unfold Rdiv; lra|]. assert (0 < W') by lra.
  apply Rmult_le_compat; auto.
  - apply Rmult_le_pos; auto. left. apply Rinv_0_lt_compat. lra.
  - apply Rmult_le_compat_l; auto. apply Rinv_le_contravar; lra.
Qed.
Lemma successive_swap (w : nat -> R) j j' L : w j <= w j' -> ~ In j' L -> forall W, NoDup L -> (forall i, In i L -> 0 <= w i) -> 0 <= w j ->
  total w (map (swap j j') L) <= W -> successive w L W <= successive w (map (swap j j') L) W.
Proof.
  intros Hjj. induction L as [|i L IH]; intros Hn W HN Hw Hj HW; cbn [map successive]; [lra|]. unfold total in HW. cbn [map fold_right] in HW.
  match type of HW with _ + ?t <= _ => change t with (total w (map (swap j j') L)) in HW end.
  apply NoDup_cons_iff in HN as (HiL & HN).
  assert (Hi : 0 <= w i) by (apply Hw; now left). assert (Hw' : forall y, In y L -> 0 <= w y) by (intros y Hy; apply Hw; now right).
  assert (Hn' : ~ In j' L) by (intros H; apply Hn; now right). assert (Hij' : i <> j') by (intros ->; apply Hn; now left).
  assert (HwS : forall y, In y (map (swap j j') L) -> 0 <= w y).
  { intros y Hy. apply in_map_iff in Hy as (u & <- & Hu). unfold swap. destruct (Nat.eqb_spec u j); [lra|]. destruct (Nat.eqb_spec u j') as [->|]; [lra|auto]. }
  assert (HT : forall l, (forall y, In y l -> 0 <= w y) -> 0 <= total w l).
  { clear. intros l Hl. unfold total. induction l as [|x l IH]; cbn [fold_right]; [lra|].
    pose proof (Hl x (or_introl eq_refl)). enough (0 <= fold_right (fun x s => w x + s) 0 l) by lra. apply IH. intros y Hy; apply Hl; now right. }
  pose proof (HT _ HwS) as HTS.
  destruct (Nat.eq_dec i j) as [->|Hne].
  - assert (Es : swap j j' j = j') by (unfold swap; now rewrite Nat.eqb_refl). rewrite Es in *.
    rewrite (swap_id j j' L HiL Hn') in *.
    apply Rmult_le_compat.
    + destruct (Req_dec (w j) 0) as [->|]; [unfold Rdiv; lra|]. apply Rmult_le_pos; auto. left. apply Rinv_0_lt_compat. lra.
    + apply successive_nonneg; auto. lra.
    + destruct (Req_dec (w j') 0) as [E|]; [replace (w j) with 0 by lra; rewrite E; lra|]. apply Rmult_le_compat_r; auto. left. apply Rinv_0_lt_compat. lra.
    + apply successive_mono; auto; lra.
  - assert (Es : swap j j' i = i). { unfold swap. apply Nat.eqb_neq in Hne, Hij'. now rewrite Hne, Hij'. } rewrite Es in *.
    destruct (Req_dec (w i) 0) as [->|]; [unfold Rdiv; lra|].
    apply Rmult_le_compat_l; [|apply IH; auto; lra]. apply Rmult_le_pos; auto. left. apply Rinv_0_lt_compat. lra.
Qed.
Lemma total_le {A} (f g : A -> R) l : (forall x, In x l -> f x <= g x) -> total f l <= total g l.
Proof. unfold total. induction l as [|x l IH]; intros H; cbn [fold_right]; [lra|]. pose proof (H x (or_introl eq_refl)). specialize (IH (fun y Hy => H y (or_intror Hy))). lra. Qed.
Lemma total_incl_le (w : nat -> R) l : forall l', NoDup l -> incl l l' -> (forall i, In i l' -> 0 <= w i) -> NoDup l' -> total w l <= total w l'.
Proof.
  induction l as [|x l IH]; intros l' HN HI Hw HN'.
  - unfold total. cbn [fold_right]. induction l' as [|y l' IH]; cbn [fold_right]; [lra|]. apply NoDup_cons_iff in HN' as (_ & HN').
    pose proof (Hw y (or_introl eq_refl)). enough (0 <= fold_right (fun x s => w x + s) 0 l') by lra. apply IH; auto; [intros u []|]. intros i Hi. apply Hw. now right.
  - apply NoDup_cons_iff in HN as (Hx & HN). assert (Hxl : In x l') by (apply HI; now left). pose proof (total_remove w x l' HN' Hxl) as E.
    unfold total at 1. cbn [fold_right]. change (w x + total w l <= total w l'). enough (total w l <= total w (remove Nat.eq_dec x l')) by lra. apply IH; auto.
    + intros y Hy. apply in_in_remove; [intros ->; contradiction|]. apply HI. now right.
    + intros i Hi. apply in_remove in Hi as (Hi & _). auto.
    + now apply NoDup_rem.
Qed.
Theorem heavier_more_often (w : nat -> R) k n j j' : (forall i, (i < n)%nat -> 0 <= w i) -> (j < n)%nat -> (j' < n)%nat -> w j <= w j' ->
  drawn_chance w k n j <= drawn_chance w k n j'.
Proof.
  intros Hw Hj Hj' Hjj. destruct (Nat.eq_dec j j') as [->|Hne]; [lra|]. unfold drawn_chance. set (W := total w (seq 0 n)).
  set (both := fun L => if in_dec Nat.eq_dec j L then (if in_dec Nat.eq_dec j' L then successive w L W else 0) else 0).
  set (only := fun u v L => if in_dec Nat.eq_dec u L then (if in_dec Nat.eq_dec v L then 0 else successive w L W) else 0).
  assert (E1 : total (fun L => if in_dec Nat.eq_dec j L then successive w L W else 0) (arrangements k (seq 0 n)) = total both (arrangements k (seq 0 n)) + total (only j j') (arrangements k (seq 0 n))).
  { rewrite <- (Rmult_1_l (total both _)), <- (Rmult_1_l (total (only j j') _)), <- total_lin. apply total_ext. intros L _. unfold both, only.
    destruct (in_dec Nat.eq_dec j L), (in_dec Nat.eq_dec j' L); ring. }
  assert (E2 : total (fun L => if in_dec Nat.eq_dec j' L then successive w L W else 0) (arrangements k (seq 0 n)) = total both (arrangements k (seq 0 n)) + total (only j' j) (arrangements k (seq 0 n))).
  { rewrite <- (Rmult_1_l (total both _)), <- (Rmult_1_l (total (only j' j) _)), <- total_lin. apply total_ext. intros L _. unfold both, only.
    destruct (in_dec Nat.eq_dec j L), (in_dec Nat.eq_dec j' L); ring. }
  rewrite E1, E2. apply Rplus_le_compat_l.
  rewrite (total_perm (only j' j) _ _ (arrangements_renamed n (swap j j') (swap_renumbering n j j' Hj Hj') k)), total_map.
  apply total_le. intros L HL. apply in_arrangements in HL as (_ & HN & HI). unfold only.
  assert (HS : NoDup (map (swap j j') L) /\ incl (map (swap j j') L) (seq 0 n)).
  { assert (HA : In L (arrangements k (seq 0 n)) \/ True) by now right. split.
    - apply (NoDup_map_sg n); auto. now apply swap_renumbering.
    - intros y Hy. apply in_map_iff in Hy as (u & <- & Hu). apply HI, in_seq in Hu. apply in_seq. pose proof (proj1 (swap_renumbering n j j' Hj Hj') u ltac:(lia)). lia. }
  destruct HS as (HS1 & HS2).
  assert (Hw' : forall l, incl l (seq 0 n) -> forall i, In i l -> 0 <= w i). { intros l Hl i Hi. apply Hl, in_seq in Hi. apply Hw. lia. }
  assert (HWS : total w (map (swap j j') L) <= W). { apply total_incl_le; auto; [|apply seq_NoDup]. apply Hw'. apply incl_refl. }
  destruct (in_dec Nat.eq_dec j L) as [H|H].
  - destruct (in_dec Nat.eq_dec j' L) as [H'|H'].
    + destruct (in_dec Nat.eq_dec j' (map (swap j j') L)); [|lra]. destruct (in_dec Nat.eq_dec j (map (swap j j') L)); [lra|].
      apply successive_nonneg; auto. intros ? ?. eapply Hw'; eauto.
    + destruct (in_dec Nat.eq_dec j' (map (swap j j') L)) as [_|C]; [|exfalso; apply C; now apply swap_in].
      destruct (in_dec Nat.eq_dec j (map (swap j j') L)) as [C|_]; [exfalso; revert C; now apply swap_notin|].
      apply successive_swap; auto. intros i Hi. now apply (Hw' L HI).
  - destruct (in_dec Nat.eq_dec j' (map (swap j j') L)); [|lra]. destruct (in_dec Nat.eq_dec j (map (swap j j') L)); [lra|].
    apply successive_nonneg; auto. intros ? ?. eapply Hw'; eauto.
Qed.
