(** The constructor of the activity-driven and inertial models. *)
From Verif Require Import Base BaseFacts Arith64 MRandom SRandom MDist MNetwork SNetwork PNetwork PNetwork2 MNetGen PNetGen
  MAgents MDeGroot MActivity SActivity PActStep PActNet PActMean PActIter PActIter2.

Section Init.
Context {a : Arith} (lm : Libm a) (g : Rng a) {A : Type} (ops : agent_ops (F a) A).
Notation D := (F a).

Definition init_body (st : ad_settings D) (i : nat) (ls : list A * rst g) : res (list A * rst g) :=
      let '(l, s) := ls in
      let (o, s) := r_real g (fofZ a (-1)) (fofZ a 1) s in
      x <- vget l i ;;
      let x := set_opinion ops x o in
      let '((act, rel), s) := copula_draw lm g (covariance_factor st)
                                (power_law_inverse_cdf lm (eps st) (gamma st))
                                (tn_inverse_cdf lm (reluctance_mean st) (reluctance_sigma st) (reluctance_eps st)) s in
      let x := set_activity ops x act in
      let x := if use_reluctances st then set_reluctance ops x rel else x in
      let x := if mean_activities st then set_activity ops x (power_law_mean lm (eps st) (gamma st)) else x in
      l <- vset l i x ;;
      Ok (l, s).

Lemma upd_app_mid X (pre : list X) x t v : upd (pre ++ x :: t) (length pre) v = pre ++ v :: t.
Proof. induction pre as [|y pre IH]; cbn; auto. now f_equal. Qed.

Lemma nth_error_app_mid X (pre : list X) x t : nth_error (pre ++ x :: t) (length pre) = Some x.
Proof. induction pre as [|y pre IH]; cbn; auto. Qed.

Lemma init_loop st : forall t pre s,
  for_from (length pre) (length t) (init_body st) (pre ++ t, s)
  = let (t', s') := drawn_agents lm g ops st t s in Ok (pre ++ t', s').
Proof.
  induction t as [|x t IH]; intros pre s; cbn [length for_from drawn_agents]; auto.
  unfold init_body at 1.
  destruct (r_real g (fofZ a (-1)) (fofZ a 1) s) as [o s1].
  unfold vget. rewrite nth_error_app_mid. cbn [bind]. unfold copula_draw, bivariate_normal.
  destruct (r_normal g s1) as [n1 s2]. destruct (r_normal g s2) as [n2 s3].
  rewrite vset_ok by (rewrite app_length; cbn; lia). cbn [bind]. rewrite upd_app_mid.
  match goal with |- for_from _ _ _ (pre ++ ?y :: t, s3) = _ =>
    replace (pre ++ y :: t) with ((pre ++ [y]) ++ t) by (rewrite <- app_assoc; reflexivity);
    replace (S (length pre)) with (length (pre ++ [y])) by (rewrite app_length; cbn; lia) end.
  rewrite IH. destruct (drawn_agents lm g ops st t s3) as [t' s4]. rewrite <- app_assoc. cbn [app].
  unfold copula_cdf_gauss, Phi. destruct (mean_activities st); reflexivity.
Qed.

Lemma drawn_agents_length st : forall l s, length (fst (drawn_agents lm g ops st l s)) = length l.
Proof.
  induction l as [|x l IH]; intros s; cbn [drawn_agents]; auto.
  destruct (r_real g (fofZ a (-1)) (fofZ a 1) s) as [o s1]. destruct (r_normal g s1) as [n1 s2].
  destruct (r_normal g s2) as [n2 s3]. specialize (IH s3).
  destruct (drawn_agents lm g ops st l s3) as [t s4]. cbn [fst length] in *. lia.
Qed.

Lemma bots_init st l : n_bots st <= length l -> n_bots st <= length (bot_opinion st) -> n_bots st <= length (bot_activity st) ->
  (if bot_present st then
          for_n (n_bots st) (fun bot_idx l =>
            o <- vget (bot_opinion st) bot_idx ;;
            x <- vget l bot_idx ;;
            l <- vset l bot_idx (set_opinion ops x o) ;;
            act <- vget (bot_activity st) bot_idx ;;
            x <- vget l bot_idx ;;
            vset l bot_idx (set_activity ops x act)) l
        else Ok l) = Ok (with_bot_values ops st l).
Proof.
  intros H1 H2 H3.
  assert (T : forall k i, nth_error (map (fun p => if fst p <? k
                then set_activity ops (set_opinion ops (snd p) (nth (fst p) (bot_opinion st) (f0 a)))
                                      (nth (fst p) (bot_activity st) (f0 a))
                else snd p) (combine (seq 0 (length l)) l)) i =
      option_map (fun x => if i <? k then set_activity ops (set_opinion ops x (nth i (bot_opinion st) (f0 a))) (nth i (bot_activity st) (f0 a)) else x) (nth_error l i)).
  { intros k i. rewrite (nth_error_indexed _ _ (fun i x => if i <? k then set_activity ops (set_opinion ops x (nth i (bot_opinion st) (f0 a))) (nth i (bot_activity st) (f0 a)) else x)); auto. }
  unfold bot_present. destruct (Nat.ltb_spec 0 (n_bots st)) as [Hb|Hb].
  2:{ f_equal. apply list_ext. intros i. unfold with_bot_values. rewrite T.
      replace (n_bots st) with 0 by lia. destruct (nth_error l i); reflexivity. }
  match goal with |- ?m = Ok ?r => assert (G : okp m (fun b => b = r)) end.
  2:{ apply okp_ex in G as (r & -> & ->). reflexivity. }
  apply (for_n_inv _ (fun k b => b = map (fun p => if fst p <? k
                then set_activity ops (set_opinion ops (snd p) (nth (fst p) (bot_opinion st) (f0 a)))
                                      (nth (fst p) (bot_activity st) (f0 a))
                else snd p) (combine (seq 0 (length l)) l))).
  - apply list_ext. intros i. rewrite T. destruct (nth_error l i); reflexivity.
  - intros k b Hk ->.
    set (b := map _ (combine (seq 0 (length l)) l)).
    assert (Lb : length b = length l) by (unfold b; rewrite map_length, combine_length, seq_length; lia).
    destruct (nth_error l k) as [x|] eqn:Ex. 2:{ apply nth_error_None in Ex. lia. }
    rewrite (vget_lt _ _ _ (f0 a)) by lia. cbn [bind].
    assert (Eb : vget b k = Ok x). { apply vget_ok. unfold b. rewrite T, Ex. cbn [option_map]. now rewrite Nat.ltb_irrefl. }
    rewrite Eb. cbn [bind]. rewrite vset_ok by lia. cbn [bind].
    rewrite (vget_lt _ (bot_activity st) _ (f0 a)) by lia. cbn [bind].
    rewrite vget_upd_eq by lia. cbn [bind]. rewrite vset_ok by (rewrite upd_length; lia). cbn [okp].
    apply list_ext. intros i. rewrite T, !nth_error_upd, upd_length, Lb, (proj2 (Nat.ltb_lt k (length l))) by lia.
    rewrite !andb_true_r. destruct (Nat.eqb_spec k i) as [<-|Hne].
    + rewrite Ex. cbn [option_map]. now rewrite (proj2 (Nat.ltb_lt k (S k))) by lia.
    + unfold b. rewrite T. destruct (nth_error l i); auto. cbn [option_map]. f_equal.
      destruct (Nat.ltb_spec i k), (Nat.ltb_spec i (S k)); auto; lia.
Qed.

Lemma with_bot_values_length st l : length (with_bot_values ops st l) = length l.
Proof. unfold with_bot_values. rewrite map_length, combine_length, seq_length. lia. Qed.

Lemma ctor_ok (d : A) st (h : network A D) s :
  wf h -> dir h = Incoming -> settings_fit st (n_agents h) ->
  n_bots st <= n_agents h -> n_bots st <= length (bot_opinion st) -> n_bots st <= length (bot_activity st) ->
  exists md s', ad_ctor lm g ops d st h s = Ok (md, s') /\ ad_ready md /\ ad_set md = st /\
    ad_base md = base_ctor (ad_max_iterations st) /\
    agents (ad_net md) = with_bot_values ops st (fst (drawn_agents lm g ops st (agents h) s)) /\
    s' = snd (drawn_agents lm g ops st (agents h) s) /\
    (mean_weights st = false -> neigh (ad_net md) = neigh h /\ wts (ad_net md) = wts h).
Proof.
  intros Hwf Hd Hs H1 H2 H3. unfold ad_ctor, get_agents_from_power_law. cbv zeta. unfold for_n at 1.
  pose proof (init_loop st (agents h) [] s) as E. cbn [app length] in E. unfold init_body in E. rewrite E. clear E.
  pose proof (drawn_agents_length st (agents h) s) as L.
  destruct (drawn_agents lm g ops st (agents h) s) as [l s1]. cbn [fst snd bind] in *.
  rewrite bots_init by (unfold n_agents in *; lia). cbn [bind].
  set (l' := with_bot_values ops st l).
  assert (L' : length l' = n_agents h) by (unfold l', n_agents; rewrite with_bot_values_length; auto).
  assert (N : forall h0 : network A D, n_agents (with_agents h0 l') = n_agents h) by (intros h0; exact L').
  destruct (mean_weights st) eqn:Em.
  - rewrite N, gen_full_const. cbn [bind]. eexists _, _. split; [reflexivity|].
    cbn [ad_set ad_base ad_net contact_prob_list agents with_agents].
    split; [|repeat split; auto; discriminate].
    unfold ad_ready. cbn [ad_set ad_net contact_prob_list]. rewrite N. rewrite repeat_length.
    split.
    { unfold wf. cbn [agents neigh wts with_agents net_of_lists]. rewrite L'. rewrite !repeat_length.
      split; auto. split; auto. split.
      - intros i Hi. rewrite !(nth_error_nth _ _ _ (nth_error_repeat_lt _ _ _ _ Hi)).
        now rewrite seq_length, repeat_length.
      - intros i j Hj. destruct (Nat.lt_ge_cases i (n_agents h)) as [Hi|Hi].
        + rewrite (nth_error_nth _ _ _ (nth_error_repeat_lt _ _ _ _ Hi)) in Hj. apply in_seq in Hj. lia.
        + rewrite nth_overflow in Hj; [destruct Hj|]. now rewrite repeat_length. }
    split; [reflexivity|]. split; auto. split; auto. split; auto. intros _.
    split; auto. unfold mean_shaped. rewrite N. cbn [neigh wts with_agents net_of_lists]. split; auto. now rewrite repeat_length.
  - eexists _, _. split; [reflexivity|]. cbn [ad_set ad_base ad_net contact_prob_list agents with_agents neigh wts].
    split; [|repeat split; auto].
    unfold ad_ready. cbn [ad_set ad_net contact_prob_list]. rewrite N.
    split; [now apply wf_with_agents|]. split; auto. split; auto. split; auto. split; auto. rewrite Em. discriminate.
Qed.
End Init.
