(** The law of a Deffuant run does not depend on the numbering of the agents: generic part. *)
From Verif Require Import Base BaseFacts Arith64 MRandom SRandom PRandom RFacts TRandom SProb SProb2 PProb PProb10 SLaw PLaw PLaw2 PLaw3 PLaw4
  MNetwork SNetwork PNetwork2 MAgents MDeGroot SDeGroot MDeffuant SDeffuant PDeffuant SEquiv TEquiv SRelabel.
From Coq Require Import Reals Lra Lia Psatz Permutation.
Local Open Scope R_scope.

(** ** Sums *)
Lemma total_perm {X} (f : X -> R) l l' : Permutation l l' -> total f l = total f l'.
Proof. unfold total. induction 1; cbn [fold_right]; try lra. Qed.
Lemma total_map {X Y} (f : Y -> R) (h : X -> Y) l : total f (map h l) = total (fun x => f (h x)) l.
Proof. unfold total. induction l as [|x l IH]; cbn [map fold_right]; auto. now rewrite IH. Qed.
Lemma mean_perm {X} (f : X -> R) l l' : Permutation l l' -> mean_of f l = mean_of f l'.
Proof. intros H. unfold mean_of. now rewrite (total_perm f l l' H), (Permutation_length H). Qed.
Lemma mean_map {X Y} (f : Y -> R) (h : X -> Y) l : mean_of f (map h l) = mean_of (fun x => f (h x)) l.
Proof. unfold mean_of. now rewrite total_map, map_length. Qed.
Lemma total_app {X} (f : X -> R) l l' : total f (l ++ l') = total f l + total f l'.
Proof. unfold total. induction l as [|x l IH]; cbn [app fold_right]; lra. Qed.

Definition pairs_total (F : nat -> nat -> R) (l : list nat) : R := total (fun p => F (nth 0 p 0%nat) (nth 1 p 0%nat)) (sublists 2 l).
Lemma total_singles {X} (f : list X -> R) (l : list X) : total f (sublists 1 l) = total (fun x => f [x]) l.
Proof.
  induction l as [|x l IH]; [reflexivity|]. cbn [sublists]. rewrite total_app, IH. destruct l as [|y l]; cbn [sublists map]; unfold total; cbn [fold_right]; lra.
Qed.
Lemma pairs_total_cons F x l : pairs_total F (x :: l) = total (F x) l + pairs_total F l.
Proof.
  unfold pairs_total. change (sublists 2 (x :: l)) with (map (cons x) (sublists 1 l) ++ sublists 2 l).
  rewrite total_app, total_map, total_singles. reflexivity.
Qed.
Lemma pairs_total_perm F l l' : (forall i j, In i l -> In j l -> F i j = F j i) -> Permutation l l' -> pairs_total F l = pairs_total F l'.
Proof.
  intros HF H. induction H as [|x l l' H IH|x y l|l l' l'' H1 IH1 H2 IH2]; auto.
  - rewrite !pairs_total_cons, IH, (total_perm _ _ _ H); auto. intros i j Hi Hj. apply HF; now right.
  - rewrite !pairs_total_cons. unfold total. cbn [fold_right]. rewrite (HF x y); [lra|right; now left|now left].
  - rewrite IH1 by auto. apply IH2. intros i j Hi Hj. apply HF; (eapply Permutation_in; [apply Permutation_sym, H1|assumption]).
Qed.
Lemma pairs_total_map F h l : pairs_total F (map h l) = pairs_total (fun i j => F (h i) (h j)) l.
Proof. induction l as [|x l IH]; [reflexivity|]. cbn [map]. now rewrite !pairs_total_cons, IH, total_map. Qed.

(** ** Relabelled lists *)
Section Lists.
Context {A : Type} (d : A) (n : nat) (sg : nat -> nat).
Hypothesis Hsg : renumbering n sg.
Lemma relabelled_nth (l l' : list A) i : length l = n -> relabelled sg l l' -> (i < n)%nat -> nth (sg i) l' d = nth i l d.
Proof using.
  intros HL (H1 & H2) Hi. specialize (H2 i ltac:(lia)). rewrite (nth_error_nth' l d) in H2 by lia. now apply nth_error_nth.
Qed.
Lemma relabelled_upd (l l' : list A) i x : length l = n -> relabelled sg l l' -> (i < n)%nat -> relabelled sg (upd l i x) (upd l' (sg i) x).
Proof using Hsg.
  intros HL (H1 & H2) Hi. split; [now rewrite !upd_length|]. rewrite upd_length. intros k Hk.
  rewrite !nth_error_upd. rewrite (H2 k Hk). rewrite (proj2 (Nat.ltb_lt (sg i) (length l'))) by (rewrite H1, HL; now apply Hsg).
  rewrite (proj2 (Nat.ltb_lt i (length l))) by lia.
  destruct (Nat.eqb_spec i k) as [->|Hne]; [now rewrite Nat.eqb_refl|].
  destruct (Nat.eqb_spec (sg i) (sg k)) as [E|_]; [|reflexivity]. exfalso. apply Hne. apply Hsg; auto. lia.
Qed.
Lemma relabelled_old (l l' : list A) : length l = n -> relabelled sg l l' -> old_order d sg l' = l.
Proof using.
  intros HL H. apply list_ext. intros k. unfold old_order. pose proof H as (H1 & _). rewrite nth_error_map.
  destruct (Nat.lt_ge_cases k n) as [Hk|Hk].
  - rewrite (nth_error_nth' (seq 0 (length l')) 0%nat) by (rewrite seq_length; lia). rewrite seq_nth by lia. cbn [option_map Nat.add].
    rewrite (relabelled_nth l l' k HL H Hk). symmetry. apply nth_error_nth'. lia.
  - rewrite (proj2 (nth_error_None (seq 0 (length l')) k)) by (rewrite seq_length; lia). symmetry. apply nth_error_None. lia.
Qed.
End Lists.

(** ** The law of a run *)
Section Run.
Context {A : Type}.
Variables (rule : nat -> nat -> list A -> list R -> res (list A * list R)) (NU : nat) (Valid : list A -> Prop)
  (EU : nat -> nat -> list A -> (list A -> R) -> R) (n : nat) (use : bool) (net0 : network A R) (N : nat)
  (Sup : list nat -> Prop) (Ep : (list nat -> R) -> R).
Hypothesis HV : forall l, Valid l -> length l = n.
Hypothesis HU : forall i j l, (i < n)%nat -> (j < n)%nat -> Valid l -> law NU (rule i j l) Valid (EU i j l).
Hypothesis Hsel : forall l, Valid l -> law N (select_interacting_agent_pair (a:=RA) uni_rng use (with_agents net0 l)) Sup Ep.
Hypothesis Hsup : forall p, Sup p -> exists i j, p = [i; j] /\ (i < n)%nat /\ (j < n)%nat.

Definition valid_net (net : network A R) : Prop := exists l, net = with_agents net0 l /\ Valid l.
Definition E1 (l : list A) (v : list A -> R) : R := Ep (fun p => EU (nth 0 p 0%nat) (nth 1 p 0%nat) l v).
Fixpoint Eit (m : nat) (l : list A) (v : list A -> R) : R := match m with O => v l | S m' => E1 l (fun l' => Eit m' l' v) end.
Fixpoint Erun (k : nat) (bs : MDeGroot.base) (l : list A) (v : MDeGroot.base -> list A -> R) : R :=
  match k with O => v bs l | S k' => Eit n l (fun l' => Erun k' (base_iteration bs) l' v) end.

Lemma encounter_law1 l : Valid l -> law (N + NU) (encounter (a:=RA) uni_rng rule use (with_agents net0 l)) valid_net (fun v => E1 l (fun l' => v (with_agents net0 l'))).
Proof using HU Hsel Hsup.
  intros Hl. unfold encounter, E1.
  set (Q := fun (p : list nat) (s : list R) => i1 <- vget p 0 ;; i2 <- vget p 1 ;; '(ag, s) <- rule i1 i2 l s ;; Ok (with_agents net0 ag, s)).
  apply law_ext with (fun us => bind (select_interacting_agent_pair (a:=RA) uni_rng use (with_agents net0 l) us) (fun r => Q (fst r) (snd r))).
  2:{ intros us. match goal with |- bind ?x _ = bind ?y _ => change y with x; destruct x as [[p s]| | |] end; reflexivity. }
  apply (law_bind _ _ N NU (select_interacting_agent_pair (a:=RA) uni_rng use (with_agents net0 l)) Q Sup valid_net Ep
     (fun p v => EU (nth 0 p 0%nat) (nth 1 p 0%nat) l (fun l' => v (with_agents net0 l')))); [now apply Hsel|].
  intros p Hp. apply Hsup in Hp as (i & j & -> & Hi & Hj). cbn [nth].
  apply law_ext with (fun us => bind (rule i j l us) (fun r => Ok (with_agents net0 (fst r), snd r))).
  - replace NU with (NU + 0)%nat by lia.
    apply (law_bind _ _ NU 0 _ (fun l' us => Ok (with_agents net0 l', us)) _ valid_net _ (fun l' f => f (with_agents net0 l')) (HU i j l Hi Hj Hl)).
    intros l' H1. apply law_ret; [|reflexivity]. now exists l'.
  - intros us. unfold Q. cbn [vget nth_error bind].
    match goal with |- bind ?x _ = bind ?y _ => change x with y; destruct y as [[l' s']| | |] end; reflexivity.
Qed.
Lemma encounters_law : forall m i l, Valid l ->
  law (m * (N + NU)) (fun us => for_from i m (fun _ st => let '(network, s) := st in encounter (a:=RA) uni_rng rule use network s) (with_agents net0 l, us))
    valid_net (fun v => Eit m l (fun l' => v (with_agents net0 l'))).
Proof using HU Hsel Hsup.
  induction m as [|m IH]; intros i l Hl; cbn [for_from Nat.mul Eit].
  - apply law_ret; [now exists l|reflexivity].
  - set (body := fun (_ : nat) (st : network A R * list R) => let '(network, s) := st in encounter (a:=RA) uni_rng rule use network s).
    apply law_ext with (fun us => bind (encounter (a:=RA) uni_rng rule use (with_agents net0 l) us) (fun r => (fun y vs => for_from (S i) m body (y, vs)) (fst r) (snd r))).
    2:{ intros us. unfold body at 1. match goal with |- bind ?x _ = bind ?y _ => change x with y; destruct y as [[y1 vs]| | |] end; reflexivity. }
    eapply law_value.
    + apply (law_bind _ _ (N + NU) (m * (N + NU)) _ (fun y vs => for_from (S i) m body (y, vs)) valid_net valid_net
        _ (fun y v => Eit m (agents y) (fun l' => v (with_agents net0 l'))) (encounter_law1 l Hl)).
      intros y (l1 & -> & Hl1). cbn [agents with_agents]. apply IH; auto.
    + intros v. reflexivity.
Qed.

Context (thr mu0 : R).
Definition wrap (bs : MDeGroot.base) (l : list A) : deffuant (a:=RA) A := mkDeffuant (a:=RA) bs thr mu0 use (with_agents net0 l).
Definition running_model (m : deffuant (a:=RA) A) : Prop := exists bs l, m = wrap bs l /\ Valid l.
Lemma iteration_law bs l : Valid l ->
  law (n * (N + NU)) (deffuant_iteration (a:=RA) uni_rng rule (wrap bs l)) running_model (fun v => Eit n l (fun l' => v (wrap (base_iteration bs) l'))).
Proof using HV HU Hsel Hsup.
  intros Hl. unfold deffuant_iteration, for_n. cbn [homophily_threshold mu use_network df_net df_base wrap].
  match goal with |- context [for_from 0 ?x] => replace x with n by (symmetry; exact (HV l Hl)) end.
  set (body := fun (_ : nat) (st : network A R * list R) => let '(network, s) := st in encounter (a:=RA) uni_rng rule use network s).
  apply law_ext with (fun us => bind (for_from 0 n body (with_agents net0 l, us))
     (fun r => Ok (mkDeffuant (a:=RA) (base_iteration bs) thr mu0 use (fst r), snd r))).
  2:{ intros us. match goal with |- bind ?x _ = bind ?y _ => change x with y; destruct y as [[y1 vs]| | |] end; reflexivity. }
  replace (n * (N + NU))%nat with (n * (N + NU) + 0)%nat by lia.
  eapply law_value.
  - apply (law_bind _ _ (n * (N + NU)) 0 _ (fun y vs => Ok (mkDeffuant (a:=RA) (base_iteration bs) thr mu0 use y, vs)) valid_net running_model
      _ (fun y v => v (mkDeffuant (a:=RA) (base_iteration bs) thr mu0 use y)) (encounters_law n 0 l Hl)).
    intros y (l1 & -> & Hl1). apply law_ret; [|reflexivity]. now exists (base_iteration bs), l1.
  - intros v. reflexivity.
Qed.
(** Any sequence of iterations. *)
Variable run : nat -> deffuant (a:=RA) A -> list R -> res (deffuant (a:=RA) A * list R).
Hypothesis Hrun0 : forall m us, run 0 m us = Ok (m, us).
Hypothesis HrunS : forall k bs l us, run (S k) (wrap bs l) us = bind (deffuant_iteration (a:=RA) uni_rng rule (wrap bs l) us) (fun r => run k (fst r) (snd r)).
Lemma run_law : forall k bs l, Valid l -> law (k * (n * (N + NU))) (run k (wrap bs l)) running_model (fun v => Erun k bs l (fun b l' => v (wrap b l'))).
Proof using HV HU Hsel Hsup Hrun0 HrunS.
  induction k as [|k IH]; intros bs l Hl; cbn [Nat.mul Erun].
  - apply law_ret; [now exists bs, l|intros us; apply Hrun0].
  - apply law_ext with (fun us => bind (deffuant_iteration (a:=RA) uni_rng rule (wrap bs l) us) (fun r => run k (fst r) (snd r))); [|intros us; apply HrunS].
    eapply law_value.
    + apply (law_bind _ _ _ (k * (n * (N + NU))) _ (run k) running_model running_model _
        (fun m v => Erun k (df_base m) (agents (df_net m)) (fun b l' => v (wrap b l'))) (iteration_law bs l Hl)).
      intros m (b1 & l1 & -> & Hl1). cbn [df_base df_net wrap agents with_agents]. apply IH; auto.
    + intros v. reflexivity.
Qed.
End Run.

(** ** Two numberings *)
Section Two.
Context {A : Type}.
Variables (Valid : list A -> Prop) (EU : nat -> nat -> list A -> (list A -> R) -> R) (n : nat) (sg : nat -> nat) (Ep Ep' : (list nat -> R) -> R) (sym : Prop).
Hypothesis HEp : forall (F F' : nat -> nat -> R), (forall i j, (i < n)%nat -> (j < n)%nat -> F' (sg i) (sg j) = F i j) ->
  (sym -> forall i j, (i < n)%nat -> (j < n)%nat -> F i j = F j i) ->
  Ep (fun p => F (nth 0 p 0%nat) (nth 1 p 0%nat)) = Ep' (fun p => F' (nth 0 p 0%nat) (nth 1 p 0%nat)).
Definition agree (v v' : list A -> R) : Prop := forall y y', Valid y -> Valid y' -> relabelled sg y y' -> v y = v' y'.
Hypothesis HEU : forall i j l l' v v', (i < n)%nat -> (j < n)%nat -> Valid l -> Valid l' -> relabelled sg l l' -> agree v v' -> EU i j l v = EU (sg i) (sg j) l' v'.
Hypothesis HS : sym -> forall i j l v, (i < n)%nat -> (j < n)%nat -> Valid l -> EU i j l v = EU j i l v.
Lemma E1_agree l l' v v' : Valid l -> Valid l' -> relabelled sg l l' -> agree v v' -> E1 EU Ep l v = E1 EU Ep' l' v'.
Proof using HEp HEU HS.
  intros Hl Hl' HR HA. unfold E1. apply (HEp (fun i j => EU i j l v) (fun i j => EU i j l' v')).
  - intros i j Hi Hj. symmetry. now apply HEU.
  - intros Hs i j Hi Hj. now apply HS.
Qed.
Lemma Eit_agree m : forall l l' v v', Valid l -> Valid l' -> relabelled sg l l' -> agree v v' -> Eit EU Ep m l v = Eit EU Ep' m l' v'.
Proof using HEp HEU HS.
  induction m as [|m IH]; intros l l' v v' Hl Hl' HR HA; cbn [Eit]; [now apply HA|].
  apply E1_agree; auto. intros y y' Hy Hy' HY. now apply IH.
Qed.
Lemma Erun_agree k : forall bs bs' l l' v v', Valid l -> Valid l' -> relabelled sg l l' -> (forall b b', agree (v b) (v' b')) ->
  Erun EU n Ep k bs l v = Erun EU n Ep' k bs' l' v'.
Proof using HEp HEU HS.
  induction k as [|k IH]; intros bs bs' l l' v v' Hl Hl' HR HA; cbn [Erun]; [now apply HA|].
  apply Eit_agree; auto. intros y y' Hy Hy' HY. now apply IH.
Qed.
End Two.

(** The two ways of selecting a pair. *)
Lemma free_pairs n sg : renumbering n sg -> forall (F F' : nat -> nat -> R), (forall i j, (i < n)%nat -> (j < n)%nat -> F' (sg i) (sg j) = F i j) ->
  (forall i j, (i < n)%nat -> (j < n)%nat -> F i j = F j i) ->
  mean_of (fun p => F (nth 0 p 0%nat) (nth 1 p 0%nat)) (sublists 2 (seq 0 n)) = mean_of (fun p => F' (nth 0 p 0%nat) (nth 1 p 0%nat)) (sublists 2 (seq 0 n)).
Proof.
  intros Hsg F F' HF HS. unfold mean_of. f_equal.
  change (pairs_total F (seq 0 n) = pairs_total F' (seq 0 n)).
  assert (HS' : forall i j, In i (map sg (seq 0 n)) -> In j (map sg (seq 0 n)) -> F' i j = F' j i).
  { intros i j Hi Hj. apply in_map_iff in Hi as (i0 & <- & Hi). apply in_map_iff in Hj as (j0 & <- & Hj). apply in_seq in Hi, Hj. rewrite !HF by lia. apply HS; lia. }
  rewrite <- (pairs_total_perm F' _ _ HS' (renumbering_perm n sg Hsg)), pairs_total_map.
  unfold pairs_total. apply total_ext. intros p Hp. apply pair_in_seq in Hp as (i & j & -> & Hi & Hj). cbn [nth]. symmetry. apply HF; lia.
Qed.
Lemma network_pairs n sg (ns ns' : list (list nat)) : renumbering n sg ->
  (forall i, (i < n)%nat -> Permutation (nth (sg i) ns' []) (map sg (nth i ns []))) ->
  (forall i j, In j (nth i ns []) -> (j < n)%nat) ->
  forall (F F' : nat -> nat -> R), (forall i j, (i < n)%nat -> (j < n)%nat -> F' (sg i) (sg j) = F i j) ->
  pair_mean ns n (fun p => F (nth 0 p 0%nat) (nth 1 p 0%nat)) = pair_mean ns' n (fun p => F' (nth 0 p 0%nat) (nth 1 p 0%nat)).
Proof.
  intros Hsg HP HR F F' HF. unfold pair_mean. cbn [nth].
  symmetry. rewrite <- (mean_perm _ _ _ (renumbering_perm n sg Hsg)), mean_map. apply mean_ext. intros i Hi. apply in_seq in Hi.
  cbv beta. rewrite (mean_perm _ _ _ (HP i ltac:(lia))), mean_map. apply mean_ext. intros j Hj. apply HF; [lia|]. eapply HR, Hj.
Qed.
