(** The law of a run of the activity-driven model with probabilistic contacts. *)
From Verif Require Import Base BaseFacts Arith64 MNetwork SNetwork PNetwork PNetwork2 MAgents MDeGroot MRandom SRandom PRandom RFacts PReservoir MActivity SActivity PActStep PActNet
  PActIter PActIter2 SProb SProb2 PProb PProb2 PProb9 PProb10 PProb11 TRandom TProb TProb2 TProb3 SNetRun.
From Coq Require Import Permutation Reals Lra FunctionalExtensionality ListDec.
Local Open Scope R_scope.

(** ** The update as a function of what is drawn *)
Section Update.
Context {a : Arith} (lm : Libm a) (g : Rng a) (q : PQ a) {A : Type} (ops : agent_ops (F a) A).
Theorem update_probabilistic_as (st : ad_settings (F a)) (h : network A (F a)) s :
  pq_bag q -> settings_fit st (n_agents h) -> wf h -> dir h = Incoming ->
  exists s' cs s1 R,
    update_network_probabilistic lm g q ops st h s = Ok (toggled (out_net (a:=a) (agents h) Outgoing cs R), s') /\
    contacts_drawn lm g q ops st (agents h) 0 [] s cs s1 /\ length cs = n_agents h /\
    coins g (reciprocity st) (one_way cs) s1 = (R, s') /\ Forall (valid (n_agents h)) cs /\ incl R (contact_pairs cs).
Proof using.
  intros Hq Hs Hwf Hd. unfold update_network_probabilistic.
  set (h0 := switch_direction_flag h).
  assert (Hd0 : dir h0 = Outgoing) by (unfold h0, switch_direction_flag; cbn; now rewrite Hd).
  destruct Hwf as (W1 & W2 & W3 & W4).
  pose proof (contact_phase lm g q ops st (agents h) Hq Hs (n_agents h) 0 h0 [] [] s eq_refl eq_refl W1 W2
     (conj (NoDup_nil _) (Forall_nil _))) as P1.
  change (n_agents h0) with (n_agents h). unfold for_n at 1.
  apply okp_ex in P1 as ([[[h1 buf] B] s1] & E1 & cs & D1 & D2 & D3 & D4 & D5 & D6 & D7 & D8).
  rewrite E1. cbn [bind]. unfold n_agents in D2, D3.
  assert (Hh1 : h1 = out_net (agents h) Outgoing cs []).
  { rewrite out_net_nil. rewrite Hd0 in D5. destruct h1 as [ag ne wt di]. cbn in D4, D5, D6, D7. rewrite D4, D5, D6, D7. reflexivity. }
  rewrite Hh1.
  replace (n_agents (out_net (agents h) Outgoing cs [])) with (length cs) by (unfold n_agents; cbn; lia).
  rewrite reciprocity_phase; auto.
  2:{ intros p. rewrite D8. cbn [set_contains existsb orb Nat.leb andb]. rewrite Nat.sub_0_r. reflexivity. }
  pose proof (coins_incl g (reciprocity st) (one_way cs) s1) as Hin.
  destruct (coins g (reciprocity st) (one_way cs) s1) as [R s2] eqn:ER. cbn [fst] in Hin.
  assert (HR : forall e, In e R -> In e (contact_pairs cs)).
  { intros e He. apply Hin in He. unfold one_way in He. now apply filter_In in He as [He _]. }
  cbn [bind].
  assert (Hl : length (agents h) = length cs) by lia.
  pose proof (wf_out (a:=a) (agents h) Outgoing cs R Hl D3 HR) as Hwo.
  rewrite (toggle_exact _ (wf_toggle_safe _ Hwo)). cbn [bind].
  exists s2, cs, s1, R. repeat (split; [now auto|]). exact HR.
Qed.
Lemma built_ok (l : list A) cs R : length l = length cs -> Forall (valid (length l)) cs -> incl R (contact_pairs cs) ->
  let h' := toggled (out_net (a:=a) l Outgoing cs R) in
  agents h' = l /\ dir h' = Incoming /\ wf h' /\ Permutation (edges h') (map (unit_edge (a:=a)) (contact_pairs cs ++ map reversed R)).
Proof using.
  intros Hl Hv HR. pose proof (wf_out (a:=a) l Outgoing cs R Hl Hv HR) as Hwo. cbv zeta.
  split; [reflexivity|]. split; [reflexivity|]. split; [now apply wf_toggled|].
  eapply Permutation_trans; [apply Permutation_sym, (toggled_same_graph _ Hwo)|now apply edges_out].
Qed.
End Update.

Lemma drawn_dec (n : nat) (cs : list (list nat)) (R : list (nat * nat)) : {Forall (valid n) cs /\ incl R (contact_pairs cs)} + {~ (Forall (valid n) cs /\ incl R (contact_pairs cs))}.
Proof.
  assert (D : forall c, {valid n c} + {~ valid n c}).
  { intros c. unfold valid. destruct (NoDup_dec Nat.eq_dec c), (Forall_dec (fun j => (j < n)%nat) (fun j => lt_dec j n) c); auto; right; tauto. }
  destruct (Forall_dec _ D cs), (incl_dec (fun p q : nat * nat => ltac:(decide equality; apply Nat.eq_dec) : {p = q} + {p <> q}) R (contact_pairs cs)); auto; right; tauto.
Defined.

(** ** What is computed from the network after the update, and from the rest of the tape *)
Section Continue.
Context (lm : Libm EA) (q : PQ EA) (A : Type) (ops : agent_ops (F EA) A) (st : ad_settings (F EA)) (h : network A (F EA)) (X beta act : nat -> R) (r : R).
Hypothesis Hp : lpow EA lm = epow.
Hypothesis Hl : llog EA lm = elog.
Hypothesis Hq : pq_bag q.
Hypothesis Ho : pq_ordered (a:=EA) (fun x : ext => exists r, x = Fin r) q.
Hypothesis Hf : settings_fit (a:=EA) st (n_agents h).
Hypothesis Hwf : wf h.
Hypothesis Hd : dir h = Incoming.
Hypothesis Hcc : forall i, (i < n_agents h)%nat -> (1 <= contact_count (a:=EA) st i < n_agents h)%nat.
Hypothesis HX : forall i x, nth_error (agents h) i = Some x ->
     get_opinion ops x = Fin (X i) /\ get_activity ops x = Fin (act i) /\ 0 <= act i <= 1 /\ homophily_of (a:=EA) st i = Fin (beta i).
Hypothesis Hr : reciprocity st = Fin r.
Hypothesis Hr01 : 0 <= r <= 1.
Variables (Kn : network A (F EA) -> list R -> R) (v : list (nat * nat) -> R) (M : nat).
Hypothesis HK : forall h' es, agents h' = agents h -> wf h' -> dir h' = Incoming -> Permutation (edges h') (map (unit_edge (a:=EA)) es) ->
  forall M', (M <= M')%nat -> expects M' (Kn h') (v es).

Theorem network_then M' : (n_agents h * (2 * n_agents h + 3) + (n_agents h * n_agents h + M) <= M')%nat ->
  expects M' (fun us => continue Kn (update_network_probabilistic (a:=EA) lm tape_rng q ops st h us))
    (over_rows (map (fun i => row_law (act i) (closeness X beta i) (contact_count (a:=EA) st i) (n_agents h)) (seq 0 (n_agents h)))
       (fun cs => over_coins r (one_way cs) (fun sel => v (contact_pairs cs ++ map reversed sel)))).
Proof using All.
  intros HM. set (n := n_agents h) in *. set (l := agents h) in *.
  set (K2 := fun (cs : list (list nat)) (R0 : list (nat * nat)) (us : list R) => if drawn_dec n cs R0 then Kn (toggled (out_net (a:=EA) l Outgoing cs R0)) us else v (contact_pairs cs ++ map reversed R0)).
  set (K1 := fun (cs : list (list nat)) (us : list R) => let (sel, s) := coins (a:=EA) tape_rng (Fin r) (one_way cs) us in K2 cs sel s).
  apply (expects_ext _ _ (fun us => continue K1 (draw_rows lm q ops st l n 0 [] us))).
  { intros us _ _. destruct (update_probabilistic_as (a:=EA) lm tape_rng q ops st h us Hq Hf Hwf Hd) as (s' & cs & s1 & R0 & E1 & E2 & E3 & E4 & E5 & E6).
    rewrite E1. cbn [continue]. apply draw_rows_ok in E2. rewrite Nat.sub_0_r in E2.
    change (length (agents h)) with n in E2. fold l in E2. rewrite E2. cbn [continue]. unfold K1.
    rewrite Hr in E4. match type of E4 with ?t = _ => match goal with |- _ = (let (_, _) := ?t' in _) => change t' with t; rewrite E4 end end.
    unfold K2. destruct (drawn_dec n cs R0) as [|G]; [reflexivity|]. exfalso. apply G. split; auto. }
  apply (rows_law lm q ops st l act (closeness X beta)) with (M := (n * n + M)%nat); auto.
  - intros i x Ex. destruct (HX i x Ex) as (_ & H1 & H2 & _). auto.
  - intros i j Hi Hj. apply (affinity_value lm A ops st l X beta i j); auto.
    + intros j0 y Ey. now destruct (HX j0 y Ey).
    + destruct (nth_error l i) as [x|] eqn:Ex; [now destruct (HX i x Ex) as (_ & _ & _ & H)|]. apply nth_error_None in Ex. lia.
  - intros i j. unfold closeness. destruct (j =? i)%nat; [lra|]. left. apply exp_pos.
  - intros i j Hne. unfold closeness. destruct (Nat.eqb_spec j i); [contradiction|]. apply exp_pos.
  - intros cs HL HF M2 HM2. apply (coins_law r Hr01 (one_way cs) (K2 cs) (fun sel => v (contact_pairs cs ++ map reversed sel)) M).
    + intros R0 M3 HM3. unfold K2. destruct (drawn_dec n cs R0) as [[G1 G2]|G]; [|apply expects_const].
      destruct (built_ok (a:=EA) l cs R0 (eq_sym HL) G1 G2) as (B1 & B2 & B3 & B4). exact (HK _ _ B1 B3 B2 B4 M3 HM3).
    + pose proof (one_way_length cs (length l) HF) as G. rewrite HL in G. change (length l) with n in G. lia.
Qed.
End Continue.

(** ** The opinion dynamics with finite values *)
Lemma total_pick (G : nat -> R) i : forall n k, total (fun j => if (j =? i)%nat then G j else 0) (seq k n) = if ((k <=? i) && (i <? k + n))%nat then G i else 0.
Proof.
  induction n as [|n IH]; intros k; cbn [seq].
  - change (total (fun j => if (j =? i)%nat then G j else 0) []) with 0. destruct (Nat.leb_spec k i), (Nat.ltb_spec i (k + 0)%nat); cbn [andb]; auto; lia.
  - unfold total in *. cbn [fold_right]. rewrite IH. destruct (Nat.eqb_spec k i) as [->|Hne].
    + replace ((S i <=? i)%nat) with false by (symmetry; apply Nat.leb_gt; lia). cbn [andb]. rewrite Nat.leb_refl. replace ((i <? i + S n)%nat) with true by (symmetry; apply Nat.ltb_lt; lia). cbn [andb]. lra.
    + destruct (Nat.leb_spec (S k) i), (Nat.leb_spec k i), (Nat.ltb_spec i (S k + n)), (Nat.ltb_spec i (k + S n)); cbn [andb]; try lra; lia.
Qed.
Section Totals.
Context {T : Type}.
Lemma tot_ext (f g : T -> R) l : (forall x, In x l -> f x = g x) -> total f l = total g l.
Proof. unfold total. induction l as [|x l IH]; intros H; cbn [fold_right]; auto. rewrite (H x) by now left. rewrite IH; auto. intros y Hy. apply H. now right. Qed.
Lemma tot_zero l : total (fun _ : T => 0) l = 0.
Proof. unfold total. induction l as [|x l IH]; cbn [fold_right]; auto. rewrite IH. lra. Qed.
Lemma tot_perm (f : T -> R) l l' : Permutation l l' -> total f l = total f l'.
Proof. unfold total. induction 1 as [|x l l' P IH|x y l|l l' l'' P1 IH1 P2 IH2]; cbn [fold_right]; auto; [now rewrite IH|lra|congruence]. Qed.
Lemma tot_app (f : T -> R) l l' : total f (l ++ l') = total f l + total f l'.
Proof. unfold total. induction l as [|x l IH]; cbn [fold_right app]; [lra|]. rewrite IH. lra. Qed.
End Totals.
Lemma tot_map {S T} (f : T -> R) (h : S -> T) l : total f (map h l) = total (fun x => f (h x)) l.
Proof. unfold total. induction l as [|x l IH]; cbn [fold_right map]; auto. now rewrite IH. Qed.
Lemma tot_flat {S T} (f : T -> R) (h : S -> list T) l : total f (flat_map h l) = total (fun x => total f (h x)) l.
Proof. induction l as [|x l IH]; cbn [flat_map]; auto. rewrite tot_app, IH. reflexivity. Qed.

Section Rows.
Context {A W : Type} (h : network A W).
Hypothesis Hwf : wf h.
Hypothesis Hd : dir h = Incoming.
(** The entries of row [i] are the edges into [i]. *)
Lemma row_total (G : nat -> R) i : (i < n_agents h)%nat ->
  total (fun p => G (fst p)) (row h i) = total (fun e : nat * nat * W => if (snd (fst e) =? i)%nat then G (fst (fst e)) else 0) (edges h).
Proof using Hwf Hd.
  intros Hi. unfold edges. rewrite Hd, tot_flat.
  rewrite (tot_ext _ (fun j => if (j =? i)%nat then (fun j => total (fun p => G (fst p)) (row h j)) j else 0)).
  - rewrite total_pick. cbn [Nat.leb andb Nat.add]. replace (i <? length (neigh h))%nat with true; auto. symmetry. apply Nat.ltb_lt. now rewrite (proj1 Hwf).
  - intros j _. rewrite tot_map. cbn [fst snd]. destruct (Nat.eqb_spec j i) as [->|]; [reflexivity|apply tot_zero].
Qed.
Lemma row_in_edges i j (w : W) : (i < n_agents h)%nat -> In (j, w) (row h i) -> In (j, i, w) (edges h).
Proof using Hwf Hd.
  intros Hi H. unfold edges. rewrite Hd. apply in_flat_map. exists i. split; [apply in_seq; rewrite (proj1 Hwf); unfold n_agents in Hi; lia|].
  apply in_map_iff. now exists (j, w).
Qed.
Lemma row_below i j (w : W) : In (j, w) (row h i) -> (j < n_agents h)%nat.
Proof using Hwf. intros H. apply in_combine_l in H. now apply (proj2 (proj2 (proj2 Hwf)) i j). Qed.
End Rows.

Section Dynamics.
Context (lm : Libm EA).
Hypothesis Ht : forall x : R, ltanh EA lm (Fin x) = Fin (tanh x).
Variable c : contact_model.
Definition fins (X : nat -> R) : list ext := map (fun i => Fin (X i)) (seq 0 (cm_n c)).
Lemma fins_nth X i : (i < cm_n c)%nat -> nth i (fins X) (Fin 0) = Fin (X i).
Proof using. intros Hi. unfold fins. now rewrite nth_map_seq by auto. Qed.
Lemma fins_length X : length (fins X) = cm_n c.
Proof using. unfold fins. now rewrite map_length, seq_length. Qed.
Lemma fins_ext X Y : (forall i, (i < cm_n c)%nat -> X i = Y i) -> fins X = fins Y.
Proof using. intros H. apply map_ext_in. intros i Hi. apply in_seq in Hi. rewrite H by lia. reflexivity. Qed.

Lemma fold_fin (X : nat -> R) rho : rho <> 0 -> forall (l : list (nat * ext)) x0, (forall p, In p l -> (fst p < cm_n c)%nat /\ snd p = Fin 1) ->
  fold_left (fun acc p => fadd EA acc (fmul EA (fmul EA (fmul EA (fdiv EA (f1 EA) (Fin rho)) (Fin (cm_K c))) (snd p))
     (ltanh EA lm (fmul EA (Fin (cm_alpha c)) (nth (fst p) (fins X) (f0 EA)))))) l (Fin x0)
  = Fin (x0 + cm_K c / rho * total (fun p => tanh (cm_alpha c * X (fst p))) l).
Proof using Ht.
  intros Hrho. induction l as [|p l IH]; intros x0 Hl; cbn [fold_left].
  - f_equal. cbn. ring.
  - destruct (Hl p (or_introl eq_refl)) as [H1 H2]. destruct p as [j w]. cbn [fst snd] in H1, H2 |- *. subst w.
    etransitivity; [|refine (eq_trans (IH (x0 + 1 / rho * cm_K c * 1 * tanh (cm_alpha c * X j)) (fun p Hp => Hl p (or_intror Hp))) _)].
    + f_equal. change (f0 EA) with (Fin 0). rewrite fins_nth by exact H1.
      cbn [fmul EA emul fdiv f1 ediv]. destruct (Req_EM_T rho 0) as [|_]; [contradiction|]. cbn [emul].
      match goal with |- context[ltanh EA lm ?e] => change (ltanh EA lm e) with (ltanh EA lm (Fin (cm_alpha c * X j))) end. rewrite Ht. reflexivity.
    + f_equal. unfold total. cbn [fold_right fst]. unfold Rdiv. ring.
Qed.
Lemma axpy_fin X k t : axpy (a:=EA) (fins X) (Fin t) (fins k) = fins (fun i => X i + t * k i).
Proof using.
  apply list_ext. intros i. unfold axpy. rewrite nth_error_map, nth_error_combine. unfold fins. rewrite !nth_error_map_seq.
  destruct (i <? cm_n c)%nat; reflexivity.
Qed.
Variables (st : ad_settings ext) (h : network (activity_agent ext) ext) (es : list (nat * nat)).
Hypothesis Hn : n_agents h = cm_n c.
Hypothesis HKc : K st = Fin (cm_K c).
Hypothesis Hal : alpha st = Fin (cm_alpha c).
Hypothesis Hdt : dt st = Fin (cm_dt c).
Hypothesis Hrel : forall i, (i < cm_n c)%nat -> cm_reluctance c i <> 0 /\ exists x, nth_error (agents h) i = Some x /\ a_reluctance x = Fin (cm_reluctance c i).
Hypothesis Hwf : wf h.
Hypothesis Hd : dir h = Incoming.
Hypothesis He : Permutation (edges h) (map (unit_edge (a:=EA)) es).
Lemma field_fin X : field (a:=EA) lm (activity_ops ext) st h (fins X) = fins (drift c es X).
Proof using All.
  unfold field. match goal with |- map _ (seq 0 ?m) = _ => replace m with (cm_n c) by (symmetry; exact Hn) end. unfold fins at 2. apply map_ext_in. intros i Hi. apply in_seq in Hi.
  destruct (Hrel i ltac:(lia)) as (Hrho & x & Ex & Er).
  match goal with |- match ?t with _ => _ end = _ => change t with (nth_error (agents h) i); rewrite Ex end. cbn [get_reluctance activity_ops]. rewrite Er.
  match goal with |- slope lm ?t _ _ _ _ _ = _ => change t with (K st); rewrite HKc end.
  match goal with |- slope lm _ ?t _ _ _ _ = _ => change t with (alpha st); rewrite Hal end. unfold slope.
  match goal with |- fold_left _ _ ?e = _ => replace e with (Fin (- X i)) by (change (f0 EA) with (Fin 0); rewrite fins_nth by lia; reflexivity) end.
  assert (Hedges : forall e, In e (edges h) -> snd e = Fin 1).
  { intros e Hin. apply (Permutation_in _ He) in Hin. apply in_map_iff in Hin as (p & <- & _). reflexivity. }
  etransitivity; [refine (fold_fin X _ Hrho (row h i) (- X i) _)|].
  - intros [j w] Hin. split; [rewrite <- Hn; exact (row_below h Hwf i j w Hin)|]. apply (row_in_edges h Hwf Hd) in Hin; [|rewrite Hn; lia]. exact (Hedges _ Hin).
  - f_equal. unfold drift. f_equal. f_equal.
    rewrite (row_total h Hwf Hd (fun j => tanh (cm_alpha c * X j)) i) by (rewrite Hn; lia).
    rewrite (tot_perm _ _ _ He), tot_map. reflexivity.
Qed.
Lemma step_fin X : with_bots (a:=EA) st (rk4_step (a:=EA) (field (a:=EA) lm (activity_ops ext) st h) (dt st) (fins X)) =
  map (fun i => if (i <? n_bots st)%nat then nth i (bot_opinion st) (Fin 0) else
     let hh := cm_dt c in let k1 := drift c es X in let k2 := drift c es (fun i => X i + hh / 2 * k1 i) in
     let k3 := drift c es (fun i => X i + hh / 2 * k2 i) in let k4 := drift c es (fun i => X i + hh * k3 i) in
     Fin (X i + hh / 6 * (k1 i + 2 * k2 i + 2 * k3 i + k4 i))) (seq 0 (cm_n c)).
Proof using All.
  unfold rk4_step. rewrite Hdt. cbv zeta.
  change (fmul EA (flit EA 1 2) (Fin (cm_dt c))) with (Fin (1 / 2 * cm_dt c)).
  rewrite field_fin, axpy_fin, field_fin, axpy_fin, field_fin, axpy_fin, field_fin.
  unfold with_bots. rewrite map_length, seq_length, fins_length. apply map_ext_in. intros i Hi. apply in_seq in Hi.
  match goal with |- (if ?b then _ else _) = (if ?b' then _ else _) => change b with b'; destruct b'; [reflexivity|] end.
  rewrite nth_map_seq by lia. cbv zeta. change (f0 EA) with (Fin 0). rewrite !fins_nth by lia.
  replace (fun i => X i + 1 / 2 * cm_dt c * drift c es X i) with (fun i => X i + cm_dt c / 2 * drift c es X i) by (apply functional_extensionality; intros j; f_equal; unfold Rdiv; ring).
  match goal with |- context[drift c es (fun i => X i + 1 / 2 * cm_dt c * ?k i)] =>
    replace (fun i => X i + 1 / 2 * cm_dt c * k i) with (fun i => X i + cm_dt c / 2 * k i) by (apply functional_extensionality; intros j; f_equal; unfold Rdiv; ring) end.
  cbn [fadd fmul fdiv fofZ EA eadd emul ediv]. destruct (Req_EM_T 6 0) as [|_]; [lra|]. cbn [eadd]. f_equal. unfold Rdiv. ring.
Qed.
End Dynamics.

(** ** Whole iterations and runs *)
Section Run.
Context (lm : Libm EA) (q : PQ EA).
Hypothesis Hp : lpow EA lm = epow.
Hypothesis Hl : llog EA lm = elog.
Hypothesis Ht : forall x : R, ltanh EA lm (Fin x) = Fin (tanh x).
Hypothesis Hq : pq_bag q.
Hypothesis Ho : pq_ordered (a:=EA) (fun x : ext => exists r, x = Fin r) q.
Notation model := (ad_model (a:=EA) (activity_agent ext)).
Definition after_update (md : model) (h : network (activity_agent ext) ext) : res model :=
  bind (rk4_slopes (a:=EA) lm (ad_set md) h) (fun ks => bind (rk4_update (a:=EA) (ad_set md) ks (agents h)) (fun l =>
  bind (reset_bots (a:=EA) (activity_ops ext) (ad_set md) l) (fun l => Ok (mkAD (a:=EA) (base_iteration (ad_base md)) (ad_set md) (with_agents h l) (contact_prob_list md))))).
Lemma iteration_splits md us : mean_weights (ad_set md) = false ->
  activity_iteration (a:=EA) lm tape_rng q md us =
  bind (update_network_probabilistic (a:=EA) lm tape_rng q (activity_ops ext) (ad_set md) (ad_net md) us) (fun hs => bind (after_update md (fst hs)) (fun m => Ok (m, snd hs))).
Proof using.
  intros Hw. unfold activity_iteration, update_network, after_update. match goal with |- context[negb ?b] => change b with (mean_weights (ad_set md)); rewrite Hw end. cbn [negb].
  match goal with |- bind (bind ?t _) _ = bind ?t' _ => change t' with t; destruct t as [[h s]| | |] end; cbn [bind fst snd]; auto.
  destruct (rk4_slopes _ _ _) as [ks| | |]; cbn [bind]; auto. destruct (rk4_update _ _ _) as [l| | |]; cbn [bind]; auto. destruct (reset_bots _ _ _) as [l'| | |]; cbn [bind]; auto.
Qed.

Variable c : contact_model.
Hypothesis Hc : admissible c.
Lemma keep {T S} (f : T -> S) (u : nat * T -> T) (l : list T) i : (forall p, f (u p) = f (snd p)) ->
  nth_error (map f (map u (combine (seq 0 (length l)) l))) i = nth_error (map f l) i.
Proof using.
  intros H. rewrite !nth_error_map, nth_error_combine, nth_error_seq. destruct (Nat.ltb_spec i (length l)) as [Hi|Hi].
  - destruct (nth_error l i); cbn [option_map]; auto. now rewrite H.
  - now rewrite (proj2 (nth_error_None l i)).
Qed.
Lemma after_update_ok md X h es : ad_ready (a:=EA) md -> described_by md c X -> agents h = agents (ad_net md) -> wf h -> dir h = Incoming ->
  Permutation (edges h) (map (unit_edge (a:=EA)) es) ->
  exists md', after_update md h = Ok md' /\ ad_ready (a:=EA) md' /\ described_by md' c (next_opinions c es X).
Proof using Ht Hc.
  intros Hr (N & NB & Hw & Hrc & HK & Hal & Hdt & Hper & Hbo & Hag) Ea Wf Dr Pe. destruct Hr as (R1 & R2 & R3 & R4 & R5 & R6).
  unfold after_update. rewrite (rk4_slopes_ok (a:=EA)) by auto. cbn [bind]. rewrite (rk4_update_ok (a:=EA)). cbn [bind].
  match goal with |- context[map ?f0 (combine (seq 0 ?m0) (agents h))] => set (l := map f0 (combine (seq 0 m0) (agents h))) end.
  assert (Nn : n_agents h = n_agents (ad_net md)) by (unfold n_agents; now rewrite Ea).
  assert (Ll : length l = n_agents h) by (unfold l; rewrite map_length, combine_length, seq_length; exact (Nat.min_id _)).
  rewrite (reset_bots_ok (a:=EA)) by (match goal with |- (_ <= ?z)%nat => change z with (length l); rewrite Ll, Nn; exact R4 | _ => exact R5 end). cbn [bind].
  set (l2 := reset_spec _ _ _). eexists. split; [reflexivity|]. 
  assert (L2 : length l2 = n_agents h) by (unfold l2; rewrite (reset_spec_length (a:=EA)); exact Ll).
  split.
  { refine (ready_next (a:=EA) md (base_iteration (ad_base md)) h (contact_prob_list md) l2 _ Ea Wf Dr _ L2); cycle 1.
    - intros E. exfalso. match type of E with ?b = true => change b with (mean_weights (ad_set md)) in E end. congruence.
    - unfold ad_ready. repeat (split; [assumption|]). exact R6. }
  set (xs := map a_opinion (agents (ad_net md))).
  assert (Exs : xs = fins c X).
  { apply list_ext. intros i. unfold xs, fins. rewrite nth_error_map, nth_error_map_seq. destruct (Nat.ltb_spec i (cm_n c)) as [Hi|Hi].
    - rewrite (Hag i Hi). reflexivity.
    - rewrite (proj2 (nth_error_None (agents (ad_net md)) i)); auto. unfold n_agents in N. lia. }
  assert (O : map a_opinion l2 = with_bots (a:=EA) (ad_set md) (rk4_step (a:=EA) (field (a:=EA) lm (activity_ops ext) (ad_set md) h) (dt (ad_set md)) xs)).
  { unfold l2. eapply eq_trans; [apply (reset_opinions (a:=EA) (activity_ops ext)); apply activity_ops_ok|]. f_equal.
    unfold l. eapply eq_trans; [apply (rk4_new_opinions (a:=EA) lm (ad_set md) h)|]. f_equal. unfold ad_opinions, xs. exact (f_equal (map a_opinion) Ea). }
  rewrite Exs in O.
  pose proof (step_fin lm Ht c (ad_set md) h es (eq_trans Nn N) HK Hal Hdt) as S.
  assert (Hrel : forall i, (i < cm_n c)%nat -> cm_reluctance c i <> 0 /\ exists x, nth_error (agents h) i = Some x /\ a_reluctance x = Fin (cm_reluctance c i)).
  { intros i Hi. split; [apply (proj2 Hc i Hi)|]. rewrite Ea, (Hag i Hi). eauto. }
  specialize (S Hrel Wf Dr Pe X). assert (O2 := eq_trans O S). clear S O.
  assert (C1 : forall i, nth_error (map a_activity l2) i = nth_error (map a_activity (agents (ad_net md))) i).
  { intros i. unfold l2. rewrite (reset_other (a:=EA) (activity_ops ext) a_activity) by reflexivity. rewrite <- Ea. apply (keep a_activity). reflexivity. }
  assert (C2 : forall i, nth_error (map a_reluctance l2) i = nth_error (map a_reluctance (agents (ad_net md))) i).
  { intros i. unfold l2. rewrite (reset_other (a:=EA) (activity_ops ext) a_reluctance) by reflexivity. rewrite <- Ea. apply (keep a_reluctance). reflexivity. }
  clearbody l2. unfold described_by. cbn [ad_net ad_set with_agents].
  split; [exact (eq_trans L2 (eq_trans Nn N))|]. do 6 (split; [assumption|]). split; [assumption|]. split; [assumption|].
  intros i Hi. match goal with |- nth_error ?z i = _ => change z with l2 end. specialize (C1 i). specialize (C2 i). rewrite !nth_error_map, (Hag i Hi) in C1, C2. cbn [option_map a_activity a_reluctance] in C1, C2.
  assert (C3 := f_equal (fun z => nth_error z i) O2). cbv beta in C3. rewrite nth_error_map, nth_error_map_seq in C3. rewrite (proj2 (Nat.ltb_lt i (cm_n c)) Hi) in C3.
  destruct (nth_error l2 i) as [[o ac re]|]; cbn [option_map a_opinion a_activity a_reluctance] in C1, C2, C3; [|discriminate].
  injection C1 as ->. injection C2 as ->. injection C3 as ->. do 2 f_equal. unfold next_opinions. rewrite <- NB.
  match goal with |- (if ?b then _ else _) = _ => change b with (i <? n_bots (ad_set md))%nat end.
  destruct (Nat.ltb_spec i (n_bots (ad_set md))) as [Hb|Hb]; [apply Hbo; now rewrite <- NB|reflexivity].
Qed.

Definition iteration_variates : nat := cm_n c * (2 * cm_n c + 3) + cm_n c * cm_n c.
Theorem run_law k f : forall md X, ad_ready (a:=EA) md -> described_by md c X -> forall M, (k * iteration_variates <= M)%nat ->
  expects M (fun us => of_opinions f (activity_run (a:=EA) lm tape_rng q k md us)) (run_mean c k f X).
Proof using All.
  induction k as [|k IH]; intros md X Hr HD M HM; cbn [activity_run run_mean].
  - apply (expects_ext _ _ (fun _ => f (map X (seq 0 (cm_n c))))); [|apply expects_const]. intros us _ _. cbn [of_opinions]. f_equal.
    destruct HD as (N & _ & _ & _ & _ & _ & _ & _ & _ & Hag). apply list_ext. intros i. rewrite nth_error_map_seq, !nth_error_map.
    destruct (Nat.ltb_spec i (cm_n c)) as [Hi|Hi].
    + rewrite (Hag i Hi). reflexivity.
    + rewrite (proj2 (nth_error_None (agents (ad_net md)) i)); auto. unfold n_agents in N. lia.
  - pose proof HD as (N & NB & Hw & Hrc & HK & Hal & Hdt & Hper & Hbo & Hag). pose proof Hr as (R1 & R2 & R3 & R4 & R5 & R6).
    set (Kn := fun (h : network (activity_agent ext) ext) us => of_opinions f (bind (after_update md h) (fun m => activity_run (a:=EA) lm tape_rng q k m us))).
    apply (expects_ext _ _ (fun us => continue Kn (update_network_probabilistic (a:=EA) lm tape_rng q (activity_ops ext) (ad_set md) (ad_net md) us))).
    { intros us _ _. rewrite iteration_splits by exact Hw. unfold Kn.
      destruct (update_network_probabilistic _ _ _ _ _ _ _) as [[h s]| | |]; cbn [bind continue fst snd]; try reflexivity.
      destruct (after_update md h) as [m| | |]; reflexivity. }
    unfold over_contacts.
    assert (G := network_then lm q (activity_agent ext) (activity_ops ext) (ad_set md) (ad_net md) X (cm_homophily c) (cm_activity c) (cm_reciprocity c)
      Hp Hl Hq Ho R3 R1 R2).
    rewrite (map_ext_in _ (fun i => row_law (cm_activity c i) (closeness X (cm_homophily c) i) (contact_count (a:=EA) (ad_set md) i) (n_agents (ad_net md))) (seq 0 (cm_n c))).
    2:{ intros i Hi. apply in_seq in Hi. rewrite (proj1 (Hper i ltac:(lia))), N. reflexivity. }
    rewrite <- N.
    apply (fun H1 H2 H3 H4 => G H1 H2 H3 H4 Kn (fun E => run_mean c k f (next_opinions c E X)) (k * iteration_variates)%nat); auto.
    + intros i Hi. rewrite N in Hi |- *. rewrite (proj1 (Hper i Hi)). apply (proj2 Hc i Hi).
    + intros i x Ex. assert (Hi : (i < cm_n c)%nat). { rewrite <- N. apply nth_error_Some. unfold n_agents in *. rewrite Ex. discriminate. }
      rewrite (Hag i Hi) in Ex. injection Ex as <-. cbn. split; auto. split; auto. split; [apply (proj2 Hc i Hi)|apply (Hper i Hi)].
    + apply Hc.
    + intros h es E1 E2 E3 E4 M' HM'. unfold Kn.
      destruct (after_update_ok md X h es Hr HD E1 E2 E3 E4) as (m & Em & Rm & Dm). rewrite Em. cbn [bind]. now apply IH.
    + rewrite !N. cbn [Nat.mul] in HM. unfold iteration_variates in *. lia.
Qed.
End Run.
