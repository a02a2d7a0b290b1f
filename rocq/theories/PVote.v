(** Expected opinions of the binary-vector Deffuant model. *)
From Verif Require Import Base BaseFacts Arith64 MRandom SRandom PRandom RFacts TRandom SProb SProb2 PProb PProb10 SLaw PLaw PLaw2 PLaw3 PLaw4 PLaw5
  MNetwork SNetwork PNetwork2 MNetGen PNetGen MAgents MDeGroot SDeGroot MDeffuant SDeffuant PDeffuant PDeffuantV PDeffuantW TNetGen TDeffuant SVote.
From Coq Require Import Reals Lra Lia Psatz.
Local Open Scope R_scope.

(** ** One encounter *)
Lemma settle_same mu0 u : forall s, settle mu0 u u s = (u, s).
Proof. induction u as [|o u IH]; intros s; cbn [settle]; [reflexivity|]. now rewrite Z.eqb_refl, IH. Qed.
Definition same_dim (dim : nat) (l : list vector_agent) : Prop := forall x, In x l -> length (v_opinion x) = dim.
Definition settled_on (l : list vector_agent) (i j : nat) (w : list Z) : list vector_agent := upd (upd l i (mkVector w)) j (mkVector w).
Lemma settled_on_length l i j w : length (settled_on l i j w) = length l.
Proof. unfold settled_on. now rewrite !upd_length. Qed.
Lemma in_upd {A} (l : list A) i x y : In y (upd l i x) -> y = x \/ In y l.
Proof.
  intros H. apply In_nth_error in H as (k & Hk). rewrite nth_error_upd in Hk.
  destruct ((i =? k)%nat && (i <? length l)%nat) eqn:E; [injection Hk as <-; now left|right; now apply nth_error_In in Hk].
Qed.
Lemma settled_on_dim dim l i j w : same_dim dim l -> length w = dim -> same_dim dim (settled_on l i j w).
Proof. intros H Hw x Hx. apply in_upd in Hx as [->|Hx]; [exact Hw|]. apply in_upd in Hx as [->|Hx]; [exact Hw|auto]. Qed.

Lemma update_law (thr mu0 : R) dim i j (l : list vector_agent) u v : 0 <= mu0 <= 1 -> same_dim dim l ->
  nth_error l i = Some (mkVector u) -> nth_error l j = Some (mkVector v) -> (Z.of_nat dim < 2147483648)%Z ->
  law (2 * dim) (update_rule_vector (a:=RA) uni_rng thr mu0 i j l) (fun l' => length l' = length l /\ same_dim dim l')
    (fun f => if Rlt_dec (INR (differing u v)) thr then over_rows (map (component_law mu0) (combine u v)) (fun w => f (settled_on l i j w)) else f l).
Proof.
  intros Hmu HD Ei Ej HB.
  assert (Li : (i < length l)%nat) by (apply nth_error_Some; congruence). assert (Lj : (j < length l)%nat) by (apply nth_error_Some; congruence).
  assert (Hu : length u = dim) by (apply (HD (mkVector u)); now apply nth_error_In in Ei).
  assert (Hv : length v = dim) by (apply (HD (mkVector v)); now apply nth_error_In in Ej).
  assert (Step : forall us, exists l' s', update_rule_vector (a:=RA) uni_rng thr mu0 i j l us = Ok (l', s') /\ vector_meets (a:=RA) uni_rng thr mu0 i j l us l' s').
  { intros us. apply (@update_vector_meets RA uni_rng thr mu0 i j l us u v Ei Ej); [lia|]. now rewrite Hu. }
  destruct (Rlt_dec (INR (differing u v)) thr) as [Hd|Hd].
  - apply law_ext with (fun us => bind (Ok (settle mu0 u v us)) (fun r => Ok (settled_on l i j (fst r), snd r))).
    + replace (2 * dim)%nat with (2 * length u + 0)%nat by lia.
      apply (law_bind _ _ _ 0 (fun us => Ok (settle mu0 u v us)) (fun w us => Ok (settled_on l i j w, us)) (fun w => length w = length u)
        (fun l' => length l' = length l /\ same_dim dim l')
        (over_rows (map (component_law mu0) (combine u v))) (fun w f => f (settled_on l i j w))); [apply settle_law; auto; lia|].
      intros w Hw. apply law_ret; [split; [apply settled_on_length|apply settled_on_dim; auto; lia]|reflexivity].
    + intros us. destruct (Step us) as (l' & s' & E & M1 & M2 & M3). rewrite E.
      specialize (M3 u v Ei Ej). cbn [RA flt fofZ] in M3. rewrite <- INR_IZR_INZ in M3.
      destruct (Rltb_spec (INR (differing u v)) thr) as [_|]; [|contradiction]. destruct M3 as (w & Hw & N1 & N2).
      apply settled_settle in Hw. rewrite Hw. cbn [bind fst snd]. f_equal. f_equal. unfold settled_on.
      apply list_ext. intros k. rewrite nth_error_upd, upd_length. destruct (Nat.eqb_spec j k) as [<-|Nj]; [rewrite (proj2 (Nat.ltb_lt _ _) Lj); exact N2|]. cbn [andb].
      rewrite nth_error_upd. destruct (Nat.eqb_spec i k) as [<-|Ni]; [rewrite (proj2 (Nat.ltb_lt _ _) Li); exact N1|]. cbn [andb]. apply M2; congruence.
  - apply law_mono with 0%nat; [|lia]. apply law_ret; [split; auto|].
    intros us. destruct (Step us) as (l' & s' & E & M1 & M2 & M3). rewrite E.
    specialize (M3 u v Ei Ej). cbn [RA flt fofZ] in M3. rewrite <- INR_IZR_INZ in M3.
    destruct (Rltb_spec (INR (differing u v)) thr) as [|_]; [contradiction|]. destruct M3 as [-> ->]. reflexivity.
Qed.

(** The mean of a component. *)
Lemma over_rows_const {X} (ls : list (list (X * R))) (a : R) : (forall l, In l ls -> total snd l = 1) -> over_rows ls (fun _ => a) = a.
Proof.
  induction ls as [|law0 ls IH]; intros H; cbn [over_rows]; auto. rewrite (total_ext _ (fun xp => a * snd xp + 0 * 0)).
  - rewrite (total_lin snd (fun _ => 0)). rewrite (H law0) by now left. ring.
  - intros xp _. rewrite IH by (intros; apply H; now right). ring.
Qed.
Lemma component_law_one mu0 o : total snd (component_law mu0 o) = 1.
Proof. destruct o as [o1 o2]. cbn [component_law]. destruct (o1 =? o2)%Z; unfold total; cbn [fold_right snd]; lra. Qed.
Lemma mean_component mu0 : forall u v c (a b : R), length u = length v ->
  over_rows (map (component_law mu0) (combine u v)) (fun w => a + b * IZR (nth c w 0%Z)) =
  a + b * ((1 + mu0) / 2 * IZR (nth c u 0%Z) + (1 - mu0) / 2 * IZR (nth c v 0%Z)).
Proof.
  assert (W : forall u v l, In l (map (component_law mu0) (combine u v)) -> total snd l = 1).
  { intros u v l Hl. apply in_map_iff in Hl as (o & <- & _). apply component_law_one. }
  induction u as [|o1 u IH]; intros [|o2 v] c a b HL; cbn [length] in HL; try discriminate.
  - cbn [combine map over_rows]. destruct c; cbn [nth]; field.
  - cbn [combine map over_rows]. destruct c as [|c]; cbn [nth].
    + rewrite (total_ext _ (fun xp => snd xp * (a + b * IZR (fst xp)))) by (intros xp _; now rewrite (over_rows_const _ _ (W u v))).
      cbn [component_law]. destruct (Z.eqb_spec o1 o2) as [->|Hne]; unfold total; cbn [fold_right fst snd]; field.
    + specialize (IH v c a b ltac:(lia)).
      rewrite (total_ext _ (fun xp => (a + b * ((1 + mu0) / 2 * IZR (nth c u 0%Z) + (1 - mu0) / 2 * IZR (nth c v 0%Z))) * snd xp + 0 * 0)).
      * rewrite (total_lin snd (fun _ => 0)), component_law_one. ring.
      * intros xp _. rewrite <- IH. ring.
Qed.
Lemma votes_upd c l i w : (i < length l)%nat ->
  votes c (upd l i (mkVector w)) = votes c l - IZR (nth c (v_opinion (nth i l (mkVector []))) 0%Z) + IZR (nth c w 0%Z).
Proof.
  intros Hi. unfold votes. revert i Hi. induction l as [|x l IH]; intros [|i] Hi; cbn [length] in Hi; try lia.
  - cbn [upd nth]. unfold total. cbn [fold_right v_opinion]. ring.
  - cbn [upd nth]. unfold total in *. cbn [fold_right]. rewrite IH by lia. ring.
Qed.
Lemma votes_settled c l i j w : (i < length l)%nat -> (j < length l)%nat -> i <> j ->
  votes c (settled_on l i j w) = votes c l - IZR (nth c (v_opinion (nth i l (mkVector []))) 0%Z) - IZR (nth c (v_opinion (nth j l (mkVector []))) 0%Z) + 2 * IZR (nth c w 0%Z).
Proof.
  intros Hi Hj Hne. unfold settled_on. rewrite votes_upd by (now rewrite upd_length). rewrite votes_upd by auto. rewrite nth_upd_neq by auto. ring.
Qed.
Lemma votes_settled_self c l i w : (i < length l)%nat ->
  votes c (settled_on l i i w) = votes c l - IZR (nth c (v_opinion (nth i l (mkVector []))) 0%Z) + IZR (nth c w 0%Z).
Proof.
  intros Hi. unfold settled_on. rewrite votes_upd by (now rewrite upd_length). rewrite votes_upd by auto. rewrite nth_upd_eq by auto. cbn [v_opinion]. ring.
Qed.
Lemma over_rows_ext {X} (ls : list (list (X * R))) : forall (f g : list X -> R), (forall t, f t = g t) -> over_rows ls f = over_rows ls g.
Proof. induction ls as [|law0 ls IHl]; intros f g H; cbn [over_rows]; auto. apply total_ext. intros xp _. f_equal. apply IHl. intros; apply H. Qed.

Definition update_mean (thr mu0 : R) (l : list vector_agent) (i j : nat) (f : list vector_agent -> R) : R :=
  let u := v_opinion (nth i l (mkVector [])) in
  let v := v_opinion (nth j l (mkVector [])) in
  if Rlt_dec (INR (differing u v)) thr then over_rows (map (component_law mu0) (combine u v)) (fun w => f (settled_on l i j w)) else f l.
Lemma differing_same u : differing u u = 0%nat.
Proof. unfold differing. induction u as [|x u IH]; cbn [combine filter length fst snd]; auto. now rewrite Z.eqb_refl. Qed.
Lemma update_votes (thr mu0 : R) dim l c i j b : same_dim dim l -> (i < length l)%nat -> (j < length l)%nat ->
  update_mean thr mu0 l i j (fun l' => b * votes c l') = b * (votes c l + favour thr mu0 c l i j).
Proof.
  intros HD Hi Hj. unfold update_mean, favour. cbv zeta.
  assert (Hu : length (v_opinion (nth i l (mkVector []))) = dim) by (apply HD; now apply nth_In).
  assert (Hv : length (v_opinion (nth j l (mkVector []))) = dim) by (apply HD; now apply nth_In).
  destruct (Rlt_dec _ thr) as [Hd|Hd]; [|ring].
  destruct (Nat.eq_dec i j) as [->|Hne].
  - rewrite (over_rows_ext _ _ (fun w => b * (votes c l - IZR (nth c (v_opinion (nth j l (mkVector []))) 0%Z)) + b * IZR (nth c w 0%Z))).
    + rewrite mean_component by lia. field.
    + intros w. rewrite votes_settled_self by auto. ring.
  - rewrite (over_rows_ext _ _ (fun w => b * (votes c l - IZR (nth c (v_opinion (nth i l (mkVector []))) 0%Z) - IZR (nth c (v_opinion (nth j l (mkVector []))) 0%Z)) + (2 * b) * IZR (nth c w 0%Z))).
    + rewrite mean_component by lia. field.
    + intros w. rewrite votes_settled by auto. ring.
Qed.

(** ** Runs *)
Section Run.
Variables (thr mu0 : R) (dim : nat) (use : bool) (net0 : network vector_agent R) (N : nat).
Variables (Sup : list nat -> Prop) (Ep : (list nat -> R) -> R).
Hypothesis Hmu : 0 <= mu0 <= 1.
Hypothesis HB : (Z.of_nat dim < 2147483648)%Z.
Definition populated (net : network vector_agent R) : Prop :=
  exists l, net = with_agents net0 l /\ length l = length (agents net0) /\ same_dim dim l.
Hypothesis Hsel : forall net, populated net -> law N (select_interacting_agent_pair (a:=RA) uni_rng use net) Sup Ep.
Hypothesis Hsup : forall p, Sup p -> exists i j, p = [i; j] /\ (i < length (agents net0))%nat /\ (j < length (agents net0))%nat.

Lemma vector_encounter_law (net : network vector_agent R) : populated net ->
  law (N + 2 * dim) (encounter (a:=RA) uni_rng (update_rule_vector uni_rng thr mu0) use net) populated
    (fun f => Ep (fun p => update_mean thr mu0 (agents net) (nth 0 p 0%nat) (nth 1 p 0%nat) (fun l' => f (with_agents net l')))).
Proof using Hmu HB Hsel Hsup.
  intros HP. unfold encounter.
  set (Q := fun (l : list nat) (s : list R) => i1 <- vget l 0 ;; i2 <- vget l 1 ;;
     '(ag, s) <- update_rule_vector (a:=RA) uni_rng thr mu0 i1 i2 (agents net) s ;; Ok (with_agents net ag, s)).
  apply law_ext with (fun us => bind (select_interacting_agent_pair (a:=RA) uni_rng use net us) (fun r => Q (fst r) (snd r))).
  2:{ intros us. match goal with |- bind ?x _ = bind ?y _ => change y with x; destruct x as [[l s]| | |] end; reflexivity. }
  apply (law_bind _ _ N (2 * dim) (select_interacting_agent_pair (a:=RA) uni_rng use net) Q Sup populated Ep
     (fun p f => update_mean thr mu0 (agents net) (nth 0 p 0%nat) (nth 1 p 0%nat) (fun l' => f (with_agents net l')))); [now apply Hsel|].
  intros p Hp. apply Hsup in Hp as (i & j & -> & Hi & Hj). cbn [nth]. destruct HP as (l & -> & HL & HD). cbn [agents with_agents] in *.
  assert (Ei : nth_error l i = Some (mkVector (v_opinion (nth i l (mkVector []))))).
  { rewrite (nth_error_nth' l (mkVector [])) by lia. now destruct (nth i l (mkVector [])). }
  assert (Ej : nth_error l j = Some (mkVector (v_opinion (nth j l (mkVector []))))).
  { rewrite (nth_error_nth' l (mkVector [])) by lia. now destruct (nth j l (mkVector [])). }
  pose proof (update_law thr mu0 dim i j l _ _ Hmu HD Ei Ej HB) as L.
  apply law_ext with (fun us => bind (update_rule_vector (a:=RA) uni_rng thr mu0 i j l us) (fun r => Ok (with_agents net0 (fst r), snd r))).
  - replace (2 * dim)%nat with (2 * dim + 0)%nat by lia.
    eapply law_value.
    + apply (law_bind _ _ (2 * dim) 0 _ (fun l' us => Ok (with_agents net0 l', us)) _ populated _ (fun l' f => f (with_agents net0 l')) L).
      intros l' [H1 H2]. apply law_ret; [|reflexivity]. exists l'. split; auto. split; auto. congruence.
    + intros f. reflexivity.
  - intros us. unfold Q. cbn [vget nth_error bind agents with_agents].
    match goal with |- bind ?x _ = bind ?y _ => change x with y; destruct y as [[l' s']| | |] end; reflexivity.
Qed.

(** The selected pairs favour nobody. *)
Variable c : nat.
Hypothesis Hfair : forall l, length l = length (agents net0) -> same_dim dim l -> forall x b, Ep (fun p => b * (x + favour thr mu0 c l (nth 0 p 0%nat) (nth 1 p 0%nat))) = b * x.
Lemma vector_encounter_grows :
  grows (N + 2 * dim) (encounter (a:=RA) uni_rng (update_rule_vector uni_rng thr mu0) use) populated (fun net => votes c (agents net)) 1.
Proof using Hmu HB Hsel Hsup Hfair.
  eapply grows_law; [apply vector_encounter_law|]. intros net b HP. pose proof HP as (l & -> & HL & HD). cbn [agents with_agents] in *. rewrite Rmult_1_r.
  rewrite <- (Hfair l HL HD (votes c l) b). apply (law_on_support _ _ _ _ _ _ _ (Hsel _ HP)).
  intros p Hp. apply Hsup in Hp as (i & j & -> & Hi & Hj). cbn [nth]. apply (update_votes thr mu0 dim); auto; lia.
Qed.
Definition voting (m : deffuant (a:=RA) vector_agent) : Prop :=
  homophily_threshold m = thr /\ mu m = mu0 /\ use_network m = use /\ populated (df_net m).
Lemma vector_iteration_grows :
  grows (length (agents net0) * (N + 2 * dim)) (vector_iteration uni_rng) voting (fun m => votes c (agents (df_net m))) 1.
Proof using Hmu HB Hsel Hsup Hfair.
  intros m (E1 & E2 & E3 & HC) b K M HK M' HM.
  destruct m as [bs t m0 us0 net]. cbn [homophily_threshold mu use_network df_net] in E1, E2, E3, HC |- *. subst t m0 us0.
  assert (HN : n_agents net = length (agents net0)) by (destruct HC as (l & -> & HL & _); exact HL).
  unfold vector_iteration, deffuant_iteration. cbn [homophily_threshold mu use_network df_net df_base]. unfold for_n.
  match goal with |- context [for_from 0 ?x] => replace x with (length (agents net0)) by (symmetry; exact HN) end.
  set (body := fun (_ : nat) (st : network vector_agent R * list R) => let '(network, s) := st in encounter (a:=RA) uni_rng (update_rule_vector uni_rng thr mu0) use network s).
  set (wrap := fun net1 : network vector_agent R => mkDeffuant (a:=RA) (base_iteration bs) thr mu0 use net1).
  apply (expects_ext _ _ (fun us => continue (fun net t => K (wrap net) t) (for_from 0 (length (agents net0)) body (net, us)))).
  { intros us _ _. match goal with |- continue _ (bind ?x _) = continue _ ?y => change x with y; destruct y as [[net' t]| | |] end; reflexivity. }
  assert (G : grows (length (agents net0) * (N + 2 * dim)) (fun x us => for_from 0 (length (agents net0)) body (x, us)) populated (fun net => votes c (agents net)) (1 ^ length (agents net0))).
  { apply grows_for. intros j. exact vector_encounter_grows. }
  rewrite pow1 in G. apply (G net HC b (fun net t => K (wrap net) t) M); auto.
  intros net1 Hnet M1 HM1. apply (HK (wrap net1)); auto. repeat (split; [reflexivity|]). exact Hnet.
Qed.
Lemma vector_run_grows k :
  grows (k * (length (agents net0) * (N + 2 * dim))) (vector_run uni_rng k) voting (fun m => votes c (agents (df_net m))) 1.
Proof using Hmu HB Hsel Hsup Hfair.
  induction k as [|k IH]; cbn [Nat.mul].
  - apply grows_ret. reflexivity.
  - replace 1 with (1 * 1) by ring. apply grows_ext with (fun m us => bind (vector_iteration uni_rng m us) (fun r => vector_run uni_rng k (fst r) (snd r))).
    + apply (grows_bind _ _ (vector_iteration uni_rng) (vector_run uni_rng k)); auto. apply vector_iteration_grows.
    + intros m us _. cbn [vector_run]. now destruct (vector_iteration uni_rng m us) as [[m' s']| | |].
Qed.
End Run.

(** ** Balanced networks *)
Lemma total_swap {A B} (f : A -> B -> R) (l : list A) (l' : list B) : total (fun x => total (f x) l') l = total (fun y => total (fun x => f x y) l) l'.
Proof.
  induction l as [|x l IH].
  - rewrite (total_ext (fun y => total (fun x => f x y) []) (fun _ => 0)); [rewrite total_const|intros; reflexivity]. rewrite Rmult_0_r. reflexivity.
  - change (total (fun x => total (f x) l') (x :: l)) with (total (f x) l' + total (fun x => total (f x) l') l). rewrite IH.
    rewrite (total_ext (fun y => total (fun x => f x y) (x :: l)) (fun y => 1 * f x y + 1 * total (fun x => f x y) l)).
    + rewrite (total_lin (f x) (fun y => total (fun x => f x y) l)). ring.
    + intros y _. unfold total. cbn [fold_right]. ring.
Qed.
Lemma total_count (f : nat -> R) n row : (forall j, In j row -> (j < n)%nat) ->
  total f row = total (fun j => INR (count_occ Nat.eq_dec row j) * f j) (seq 0 n).
Proof.
  induction row as [|x row IH]; intros H.
  - transitivity (total (fun _ : nat => 0) (seq 0 n)); [rewrite total_const, Rmult_0_r; reflexivity|]. apply total_ext. intros j _. cbn [count_occ INR]. ring.
  - change (total f (x :: row)) with (f x + total f row). rewrite IH by (intros; apply H; now right).
    rewrite (total_ext (fun j => INR (count_occ Nat.eq_dec (x :: row) j) * f j) (fun j => 1 * (if Nat.eq_dec j x then f j else 0) + 1 * (INR (count_occ Nat.eq_dec row j) * f j))).
    + rewrite (total_lin (fun j => if Nat.eq_dec j x then f j else 0)).
      assert (E : total (fun j => if Nat.eq_dec j x then f j else 0) (seq 0 n) = f x); [|rewrite E; ring].
      assert (G : forall m s, (s <= x < s + m)%nat -> total (fun j => if Nat.eq_dec j x then f j else 0) (seq s m) = f x).
      { induction m as [|m IHm]; intros s Hs; [lia|]. cbn [seq]. unfold total. cbn [fold_right].
        change (fold_right _ 0 (seq (S s) m)) with (total (fun j => if Nat.eq_dec j x then f j else 0) (seq (S s) m)).
        destruct (Nat.eq_dec s x) as [->|Hne].
        - rewrite (total_ext _ (fun _ => 0)); [rewrite total_const; ring|]. intros j Hj. apply in_seq in Hj. destruct (Nat.eq_dec j x); [lia|reflexivity].
        - rewrite IHm by lia. ring. }
      apply G. specialize (H x (or_introl eq_refl)). lia.
    + intros j _. cbn [count_occ]. destruct (Nat.eq_dec x j) as [->|Hne].
      * destruct (Nat.eq_dec j j); [|congruence]. rewrite S_INR. ring.
      * destruct (Nat.eq_dec j x); [congruence|]. ring.
Qed.
Lemma balanced_total (ns : list (list nat)) n (f : nat -> nat -> R) :
  (forall i j, In j (nth i ns []) -> (j < n)%nat) ->
  (forall i j, (i < n)%nat -> (j < n)%nat -> count_occ Nat.eq_dec (nth i ns []) j = count_occ Nat.eq_dec (nth j ns []) i) ->
  (forall i j, f i j = - f j i) ->
  total (fun i => total (f i) (nth i ns [])) (seq 0 n) = 0.
Proof.
  intros Hr Hs Ha. set (S := total (fun i => total (f i) (nth i ns [])) (seq 0 n)).
  assert (E : S = total (fun i => total (fun j => INR (count_occ Nat.eq_dec (nth i ns []) j) * f i j) (seq 0 n)) (seq 0 n)).
  { apply total_ext. intros i _. apply total_count. intros j Hj. now apply (Hr i). }
  assert (E' : S = - S); [|lra].
  rewrite E at 1. rewrite total_swap, E.
  transitivity (total (fun j => (-1) * total (fun i => INR (count_occ Nat.eq_dec (nth j ns []) i) * f j i) (seq 0 n) + 0 * 0) (seq 0 n)).
  - apply total_ext. intros j Hj. apply in_seq in Hj.
    rewrite (total_ext _ (fun i => (-1) * (INR (count_occ Nat.eq_dec (nth j ns []) i) * f j i) + 0 * 0)).
    + rewrite (total_lin _ (fun _ => 0)). ring.
    + intros i Hi. apply in_seq in Hi. rewrite (Hs i j), (Ha i j) by lia. ring.
  - rewrite (total_lin _ (fun _ => 0)). ring.
Qed.
Lemma differing_sym u : forall v, differing u v = differing v u.
Proof.
  unfold differing. induction u as [|x u IH]; intros [|y v]; cbn [combine filter fst snd]; auto. rewrite Z.eqb_sym. destruct (y =? x)%Z; cbn [negb length]; now rewrite IH.
Qed.
Lemma favour_anti thr mu0 c l i j : favour thr mu0 c l i j = - favour thr mu0 c l j i.
Proof.
  unfold favour. cbv zeta. rewrite (differing_sym (v_opinion (nth j l (mkVector [])))). destruct (Rlt_dec _ thr); ring.
Qed.
Lemma pair_mean_fair (ns : list (list nat)) n d thr mu0 c l x b : (0 < n)%nat -> (0 < d)%nat ->
  (forall i j, In j (nth i ns []) -> (j < n)%nat) ->
  (forall i, (i < n)%nat -> length (nth i ns []) = d) ->
  (forall i j, (i < n)%nat -> (j < n)%nat -> count_occ Nat.eq_dec (nth i ns []) j = count_occ Nat.eq_dec (nth j ns []) i) ->
  pair_mean ns n (fun p => b * (x + favour thr mu0 c l (nth 0 p 0%nat) (nth 1 p 0%nat))) = b * x.
Proof.
  intros Hn Hd Hr Hl Hs. unfold pair_mean. cbn [nth]. unfold mean_of at 1. rewrite seq_length.
  assert (N0 : 0 < INR n) by now apply lt_0_INR. assert (D0 : 0 < INR d) by now apply lt_0_INR.
  rewrite (total_ext _ (fun i => (b / INR d) * total (favour thr mu0 c l i) (nth i ns []) + (b * x) * 1)).
  - rewrite (total_lin (fun i => total (favour thr mu0 c l i) (nth i ns [])) (fun _ => 1)), total_const, seq_length.
    rewrite (balanced_total ns n (favour thr mu0 c l)); auto; [field; lra|]. intros i j. apply favour_anti.
  - intros i Hi. apply in_seq in Hi. unfold mean_of. rewrite Hl by lia.
    rewrite (total_ext _ (fun j => b * favour thr mu0 c l i j + (b * x) * 1)) by (intros; ring).
    rewrite (total_lin (favour thr mu0 c l i) (fun _ => 1)), total_const, Hl by lia. field. lra.
Qed.

(** ** The lattice *)
Lemma next_prev L x y : (x < L)%nat -> (y < L)%nat -> ((x + L - 1) mod L = y <-> (y + 1) mod L = x)%nat.
Proof.
  intros Hx Hy.
  assert (E1 : ((x + L - 1) mod L = if (x =? 0)%nat then L - 1 else x - 1)%nat).
  { destruct (Nat.eqb_spec x 0) as [->|H]; [now rewrite Nat.mod_small by lia|].
    replace (x + L - 1)%nat with ((x - 1) + 1 * L)%nat by lia. rewrite Nat.mod_add by lia. apply Nat.mod_small. lia. }
  assert (E2 : ((y + 1) mod L = if (y + 1 =? L)%nat then 0 else y + 1)%nat).
  { destruct (Nat.eqb_spec (y + 1) L) as [->|H]; [apply Nat.mod_same; lia|apply Nat.mod_small; lia]. }
  rewrite E1, E2. destruct (Nat.eqb_spec x 0); destruct (Nat.eqb_spec (y + 1) L); lia.
Qed.
Lemma site_eq L x y x' y' : (x < L)%nat -> (x' < L)%nat -> (x + L * y = x' + L * y')%nat -> x = x' /\ y = y'.
Proof. intros H H' E. assert (y = y') by nia. subst. split; lia. Qed.
Lemma lattice_balanced {A W} (d : A) L (w : W) G : (Z.of_nat L < 2147483648)%Z -> generate_square_lattice d L w = Ok G -> balanced G 4.
Proof.
  intros HL E. destruct (C18_lattice A W d L w HL) as (G' & E' & Hw & Hn & Hd & Hrow). rewrite E in E'. injection E' as <-.
  unfold n_agents in Hn. intros i Hi. rewrite Hn in Hi. assert (HL0 : L <> 0%nat) by (intros ->; cbn in Hi; lia).
  assert (Site : forall k, (k < L * L)%nat -> exists x y, k = (x + L * y)%nat /\ (x < L)%nat /\ (y < L)%nat /\
     nth k (neigh G) [] = [ (x + L - 1) mod L + L * y; (x + 1) mod L + L * y; x + L * ((y + L - 1) mod L); x + L * ((y + 1) mod L) ]%nat).
  { intros k Hk. exists (k mod L)%nat, (k / L)%nat. pose proof (Nat.div_mod k L HL0) as D.
    assert (H1 : (k mod L < L)%nat) by now apply Nat.mod_upper_bound. assert (H2 : (k / L < L)%nat) by (apply Nat.div_lt_upper_bound; lia).
    split; [lia|]. split; auto. split; auto. destruct (Hrow (k mod L) (k / L) H1 H2)%nat as [R1 _].
    replace (k mod L + L * (k / L))%nat with k in R1 at 1 by lia. unfold get_neighbours in R1. apply vget_ok in R1. now rewrite (nth_error_nth _ _ [] R1). }
  destruct (Site i Hi) as (x & y & -> & Hx & Hy & Ei). rewrite Ei. split; [reflexivity|].
  intros j Hj. rewrite Hn in Hj. destruct (Site j Hj) as (x' & y' & -> & Hx' & Hy' & Ej). rewrite Ej. cbn [count_occ].
  assert (M : forall z, (z mod L < L)%nat) by (intros; now apply Nat.mod_upper_bound).
  assert (P1 : ((x + L - 1) mod L + L * y = x' + L * y' <-> (x' + 1) mod L + L * y' = x + L * y)%nat).
  { split; intros H; apply site_eq in H as [H1 ->]; auto; rewrite ?(proj1 (next_prev L x x' Hx Hx') H1), ?(proj2 (next_prev L x x' Hx Hx') H1); auto. }
  assert (P2 : ((x + 1) mod L + L * y = x' + L * y' <-> (x' + L - 1) mod L + L * y' = x + L * y)%nat).
  { split; intros H; apply site_eq in H as [H1 ->]; auto; rewrite ?(proj1 (next_prev L x' x Hx' Hx) H1), ?(proj2 (next_prev L x' x Hx' Hx) H1); auto. }
  assert (P3 : (x + L * ((y + L - 1) mod L) = x' + L * y' <-> x' + L * ((y' + 1) mod L) = x + L * y)%nat).
  { split; intros H; apply site_eq in H as [H1 H2]; auto; subst x'; f_equal; f_equal; [exact (proj1 (next_prev L y y' Hy Hy') H2)|exact (proj2 (next_prev L y y' Hy Hy') H2)]. }
  assert (P4 : (x + L * ((y + 1) mod L) = x' + L * y' <-> x' + L * ((y' + L - 1) mod L) = x + L * y)%nat).
  { split; intros H; apply site_eq in H as [H1 H2]; auto; subst x'; f_equal; f_equal; [exact (proj2 (next_prev L y' y Hy' Hy) H2)|exact (proj1 (next_prev L y' y Hy' Hy) H2)]. }
  repeat match goal with |- context [Nat.eq_dec ?p ?q] => destruct (Nat.eq_dec p q) end; tauto.
Qed.
