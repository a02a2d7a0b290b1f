(** Facts about the opinion dynamics in exact arithmetic. *)
From Verif Require Import Base BaseFacts Arith64 RFacts MRandom SRandom PRandom MDist MNetwork SNetwork PNetwork PNetwork2
  MAgents MDeGroot MActivity SActivity PActStep PActNet PActIter PActMean PActIter2 PActThm PActSym.
From Coq Require Import Reals Lra Psatz.
Local Open Scope R_scope.

Lemma fold_scaled (c : R) (d : nat * R -> R) (r : list (nat * R)) (x0 c' : R) : c = c' ->
  fold_left (fun acc p => (acc + c * snd p * d p)%R) r x0 = (x0 + c' * Rsum (map (fun p => snd p * d p) r))%R.
Proof.
  intros <-. revert x0. induction r as [|p r IH]; intros x0; cbn [fold_left map].
  - rewrite Rsum_nil. lra.
  - rewrite IH, Rsum_cons. ring.
Qed.

Lemma slope_R (lm : Libm RA) (Kc al : R) (xs : list R) i (rel : R) (r : list (nat * R)) :
  slope (a:=RA) lm Kc al xs i rel r =
  (- nth i xs 0 + Kc / rel * Rsum (map (fun p => snd p * ltanh RA lm (al * nth (fst p) xs 0)) r))%R.
Proof.
  unfold slope. cbn [fopp fadd fmul fdiv f0 f1 RA].
  exact (fold_scaled (1 / rel * Kc) (fun p => ltanh RA lm (al * nth (fst p) xs 0)%R) r (- nth i xs 0) (Kc / rel)
           ltac:(unfold Rdiv; ring))%R.
Qed.

Lemma Rsum_abs_bound (r : list (nat * R)) (d : nat * R -> R) : (forall p, Rabs (d p) <= 1) ->
  Rabs (Rsum (map (fun p => snd p * d p) r)) <= Rsum (map (fun p => Rabs (snd p)) r).
Proof.
  intros Hd. induction r as [|p r IH]; cbn [map].
  - rewrite !Rsum_nil, Rabs_R0. lra.
  - rewrite !Rsum_cons. eapply Rle_trans; [apply Rabs_triang|]. apply Rplus_le_compat; auto.
    rewrite Rabs_mult. specialize (Hd p). pose proof (Rabs_pos (snd p)). nra.
Qed.

Lemma abs_le_iff x M : Rabs x <= M <-> - M <= x <= M.
Proof. split; intros H; [|now apply Rabs_le]. unfold Rabs in H. destruct (Rcase_abs x); lra. Qed.

Lemma rk4_bound x h F1 F2 F3 F4 M : 0 < h <= 1 -> Rabs x <= M ->
  Rabs F1 <= M -> Rabs F2 <= M -> Rabs F3 <= M -> Rabs F4 <= M ->
  let k1 := - x + F1 in let k2 := - (x + 1 / 2 * h * k1) + F2 in
  let k3 := - (x + 1 / 2 * h * k2) + F3 in let k4 := - (x + h * k3) + F4 in
  Rabs (x + h * (k1 + 2 * k2 + 2 * k3 + k4) / 6) <= M.
Proof.
  intros Hh Hx H1 H2 H3 H4. cbv zeta.
  match goal with |- Rabs ?e <= _ => replace e with
    ((1 - h + h*h/2 - h*h*h/6 + h*h*h*h/24) * x + h/6*(1 - h + h*h/2 - h*h*h/4) * F1
     + h/6*(2 - h + h*h/2) * F2 + h/6*(2 - h) * F3 + h/6 * F4) by field end.
  set (c0 := 1 - h + h*h/2 - h*h*h/6 + h*h*h*h/24). set (c1 := h/6*(1 - h + h*h/2 - h*h*h/4)).
  set (c2 := h/6*(2 - h + h*h/2)). set (c3 := h/6*(2-h)). set (c4 := h/6).
  assert (Hsq : 0 <= h*h <= h) by nra.
  assert (Hcu : 0 <= h*h*h <= h*h) by nra.
  assert (Hq : 0 <= h*h*h*h) by nra.
  assert (0 <= c0) by (unfold c0; lra).
  assert (0 <= c1) by (unfold c1; apply Rmult_le_pos; lra).
  assert (0 <= c2) by (unfold c2; apply Rmult_le_pos; lra).
  assert (0 <= c3) by (unfold c3; apply Rmult_le_pos; lra).
  assert (0 <= c4) by (unfold c4; lra).
  assert (Hs : c0 + c1 + c2 + c3 + c4 = 1) by (unfold c0, c1, c2, c3, c4; field).
  clearbody c0 c1 c2 c3 c4.
  apply abs_le_iff in Hx, H1, H2, H3, H4. apply abs_le_iff.
  assert (M * (c0 + c1 + c2 + c3 + c4) = M) by (rewrite Hs; ring).
  split; nra.
Qed.

Lemma rk4_bound_eq x h k1 k2 k3 k4 F1 F2 F3 F4 M : 0 < h <= 1 -> Rabs x <= M ->
  Rabs F1 <= M -> Rabs F2 <= M -> Rabs F3 <= M -> Rabs F4 <= M ->
  k1 = - x + F1 -> k2 = - (x + 1 / 2 * h * k1) + F2 ->
  k3 = - (x + 1 / 2 * h * k2) + F3 -> k4 = - (x + h * k3) + F4 ->
  Rabs (x + h * (k1 + 2 * k2 + 2 * k3 + k4) / 6) <= M.
Proof. intros ? ? ? ? ? ? -> -> -> ->. now apply rk4_bound. Qed.

Section Bound.
Context (lm : Libm RA) {A : Type} (ops : agent_ops (F RA) A).
Hypothesis Htanh : forall x : R, Rabs (ltanh RA lm x) <= 1.

(** the pull on agent [i] of a network: |K / reluctance| * sum of |incoming weights| *)
Definition pull (st : ad_settings (F RA)) (net : network A (F RA)) (i : nat) (rel : R) : R :=
  Rabs (K st / rel) * Rsum (map (fun p => Rabs (snd p)) (row net i)).

Lemma field_split (st : ad_settings (F RA)) (net : network A (F RA)) i x : nth_error (agents net) i = Some x ->
  forall xs, exists Fi, nth i (field (a:=RA) lm ops st net xs) 0 = - nth i xs 0 + Fi /\
    Rabs Fi <= pull st net i (get_reluctance ops x).
Proof.
  intros Ex xs. assert (Hi : (i < n_agents net)%nat) by (apply nth_error_Some; congruence).
  exists (K st / get_reluctance ops x * Rsum (map (fun p => snd p * ltanh RA lm (alpha st * nth (fst p) xs 0)) (row net i))).
  split.
  - unfold field. rewrite (nth_map_seq _ _ _ _ _ Hi), Ex. apply slope_R.
  - unfold pull. rewrite Rabs_mult. apply Rmult_le_compat_l; [apply Rabs_pos|].
    apply (Rsum_abs_bound _ (fun p => ltanh RA lm (alpha st * nth (fst p) xs 0))). intros p. apply Htanh.
Qed.

Lemma nth_axpy (xs ks : list R) (h : R) i : (i < length xs)%nat -> length ks = length xs ->
  nth i (axpy (a:=RA) xs h ks) 0 = nth i xs 0 + h * nth i ks 0.
Proof.
  unfold axpy. revert ks i. induction xs as [|x xs IH]; intros [|k ks] [|i] Hi Hl; cbn [length] in *; try lia; auto.
  cbn [combine map nth]. apply IH; lia.
Qed.

Lemma rk4_agent_bound (st : ad_settings (F RA)) (net : network A (F RA)) (xs : list R) (h : R) i x :
  nth_error (agents net) i = Some x -> length xs = n_agents net -> 0 < h <= 1 ->
  Rabs (nth i (rk4_step (a:=RA) (field (a:=RA) lm ops st net) h xs) 0)
  <= Rmax (Rabs (nth i xs 0)) (pull st net i (get_reluctance ops x)).
Proof.
  intros Ex Hl Hh. assert (Hi : (i < length xs)%nat) by (rewrite Hl; apply nth_error_Some; congruence).
  pose proof (field_split st net i x Ex) as Hf.
  assert (Hlen : forall ys, length (field (a:=RA) lm ops st net ys) = length xs).
  { intros ys. unfold field. rewrite map_length, seq_length. now symmetry. }
  unfold rk4_step. cbv zeta. rewrite nth_map_seq by exact Hi. cbn [fadd fmul fdiv fofZ flit f0 RA].
  generalize dependent (field (a:=RA) lm ops st net). intros f Hf Hlen.
  set (M := Rmax _ _).
  pose proof (Rmax_l (Rabs (nth i xs 0)) (pull st net i (get_reluctance ops x))) as M1. fold M in M1.
  pose proof (Rmax_r (Rabs (nth i xs 0)) (pull st net i (get_reluctance ops x))) as M2. fold M in M2.
  destruct (Hf xs) as (F1 & E1 & B1).
  pose proof (nth_axpy xs (f xs) (1 / 2 * h) i Hi (Hlen _)) as A1.
  destruct (Hf (axpy (a:=RA) xs (1 / 2 * h) (f xs))) as (F2 & E2 & B2).
  set (k1 := f xs) in *.
  pose proof (nth_axpy xs (f (axpy (a:=RA) xs (1 / 2 * h) k1)) (1 / 2 * h) i Hi (Hlen _)) as A2.
  destruct (Hf (axpy (a:=RA) xs (1 / 2 * h) (f (axpy (a:=RA) xs (1 / 2 * h) k1)))) as (F3 & E3 & B3).
  set (k2 := f (axpy (a:=RA) xs (1 / 2 * h) k1)) in *.
  pose proof (nth_axpy xs (f (axpy (a:=RA) xs (1 / 2 * h) k2)) h i Hi (Hlen _)) as A3.
  destruct (Hf (axpy (a:=RA) xs h (f (axpy (a:=RA) xs (1 / 2 * h) k2)))) as (F4 & E4 & B4).
  set (k3 := f (axpy (a:=RA) xs (1 / 2 * h) k2)) in *.
  set (k4 := f (axpy (a:=RA) xs h k3)) in *.
  rewrite A1 in E2. rewrite A2 in E3. rewrite A3 in E4.
  exact (rk4_bound_eq _ _ _ _ _ _ F1 F2 F3 F4 M Hh M1 (Rle_trans _ _ _ B1 M2) (Rle_trans _ _ _ B2 M2)
    (Rle_trans _ _ _ B3 M2) (Rle_trans _ _ _ B4 M2) E1 E2 E3 E4).
Qed.
End Bound.

(** ** Mirror symmetry *)
Section Mirror.
Definition mirror_settings (st : ad_settings (F RA)) : ad_settings (F RA) :=
  mkADS (ad_max_iterations st) (dt st) (m st) (eps st) (gamma st) (alpha st) (homophily st) (reciprocity st) (K st)
        (mean_activities st) (mean_weights st) (n_bots st) (bot_m st) (bot_activity st) (map Ropp (bot_opinion st))
        (bot_homophily st) (use_reluctances st) (reluctance_mean st) (reluctance_sigma st) (reluctance_eps st) (covariance_factor st).

Lemma nth_map_Ropp (xs : list R) i : nth i (map Ropp xs) 0 = - nth i xs 0.
Proof. rewrite <- (map_nth Ropp xs 0 i). now rewrite Ropp_0. Qed.

Context (lm : Libm RA) {A : Type} (ops : agent_ops (F RA) A).

Section Agents.
Context (mir : A -> A).
Hypothesis Hop : forall x, get_opinion ops (mir x) = - get_opinion ops x.
Hypothesis Hac : forall x, get_activity ops (mir x) = get_activity ops x.
Hypothesis Hre : forall x, get_reluctance ops (mir x) = get_reluctance ops x.

Lemma homophily_mirror st (l : list A) i j :
  homophily_weight (a:=RA) lm ops (mirror_settings st) (map mir l) i j = homophily_weight (a:=RA) lm ops st l i j.
Proof.
  unfold homophily_weight. destruct (j =? i)%nat; auto.
  change (bot_present (a:=RA) (mirror_settings st)) with (bot_present (a:=RA) st).
  cbn [n_bots bot_homophily homophily mirror_settings].
  match goal with |- bind ?x _ = bind ?y _ => change y with x; destruct x as [h|e|u|]; auto end. cbn [bind].
  unfold opinion_at, vget. rewrite !nth_error_map.
  destruct (nth_error l i) as [x|]; auto. destruct (nth_error l j) as [y|]; auto. cbn [option_map bind]. do 3 f_equal.
  cbn [fsub fabs RA].
  assert (E : forall u v u' v' : R, u' = - u -> v' = - v -> Rabs (u' - v') = Rabs (u - v)).
  { intros u v u' v' -> ->. replace (- u - - v) with (- (u - v)) by ring. apply Rabs_Ropp. }
  apply E; [apply (Hop x)|apply (Hop y)].
Qed.

Lemma affinity_mirror st (l : list A) i j : 
  affinity (a:=RA) lm ops (mirror_settings st) (map mir l) i j = affinity (a:=RA) lm ops st l i j.
Proof.
  unfold affinity. destruct (j =? i)%nat; auto. rewrite !nth_error_map.
  destruct (nth_error l i) as [x|]; auto. destruct (nth_error l j) as [y|]; auto. cbn [option_map]. f_equal. f_equal.
  cbn [fsub fabs RA].
  assert (E : forall u v u' v' : R, u' = - u -> v' = - v -> Rabs (u' - v') = Rabs (u - v)).
  { intros u v u' v' -> ->. replace (- u - - v) with (- (u - v)) by ring. apply Rabs_Ropp. }
  apply E; [apply (Hop x)|apply (Hop y)].
Qed.

Lemma contact_probability_mirror st (l : list A) i j :
  contact_probability (a:=RA) lm ops (mirror_settings st) (map mir l) i j = contact_probability (a:=RA) lm ops st l i j.
Proof.
  unfold contact_probability. rewrite nth_error_map. destruct (nth_error l i) as [x|]; auto. cbn [option_map].
  assert (T : total_affinity (a:=RA) lm ops (mirror_settings st) (map mir l) i = total_affinity (a:=RA) lm ops st l i).
  { unfold total_affinity. rewrite map_length. apply fold_left_ext. intros acc k _. now rewrite affinity_mirror. }
  unfold share. rewrite T, affinity_mirror. f_equal. f_equal. apply Hac.
Qed.

Hypothesis Hodd : forall x : R, ltanh RA lm (- x) = - ltanh RA lm x.

Lemma field_mirror st (net : network A (F RA)) (xs : list R) :
  field (a:=RA) lm ops (mirror_settings st) (with_agents net (map mir (agents net))) (map Ropp xs)
  = map Ropp (field (a:=RA) lm ops st net xs).
Proof.
  unfold field. change (n_agents (with_agents net (map mir (agents net)))) with (length (map mir (agents net))).
  rewrite map_length, map_map. apply map_ext. intros i. cbn [agents with_agents]. rewrite nth_error_map.
  destruct (nth_error (agents net) i) as [x|]; cbn [option_map]; [|symmetry; apply Ropp_0].
  change (row (with_agents net (map mir (agents net))) i) with (row net i).
  cbn [K alpha mirror_settings].
  eapply eq_trans; [apply slope_R|]. symmetry. eapply eq_trans; [apply f_equal; apply slope_R|].
  rewrite nth_map_Ropp. pose proof (Hre x) as E. cbn [F RA] in *. rewrite E. clear E.
  assert (E : Rsum (map (fun p => snd p * ltanh RA lm (alpha st * nth (fst p) (map Ropp xs) 0)) (row net i))
            = - Rsum (map (fun p => snd p * ltanh RA lm (alpha st * nth (fst p) xs 0)) (row net i))).
  { induction (row net i) as [|p r IH]; cbn [map]; [rewrite Rsum_nil; ring|]. rewrite !Rsum_cons, IH, nth_map_Ropp.
    replace (alpha st * - nth (fst p) xs 0) with (- (alpha st * nth (fst p) xs 0)) by ring. rewrite Hodd. ring. }
  cbn [F RA] in *. rewrite E. ring.
Qed.

(** the network update is the same for mirrored opinions *)
Lemma update_mirror (g : Rng RA) (q : PQ RA) (md : ad_model (a:=RA) A) s h cpl s' : pq_bag q -> ad_ready md ->
  update_network (a:=RA) lm g q ops (ad_set md) (ad_net md) (contact_prob_list md) s = Ok (h, cpl, s') ->
  update_network (a:=RA) lm g q ops (mirror_settings (ad_set md)) (with_agents (ad_net md) (map mir (agents (ad_net md))))
     (contact_prob_list md) s = Ok (with_agents h (map mir (agents (ad_net md))), cpl, s').
Proof.
  intros Hq (W1 & W2 & W3 & W4 & W5 & W6) E. unfold update_network in *. cbn [mean_weights mirror_settings].
  set (st := ad_set md) in *. set (l := agents (ad_net md)) in *.
  destruct (mean_weights st) eqn:Em; cbn [negb] in *.
  - destruct (W6 eq_refl) as [Hms Hcl].
    rewrite update_mean_ok in E by auto. cbn [bind] in E. inversion E; subst h cpl s'. clear E.
    assert (N : n_agents (with_agents (ad_net md) (map mir l)) = n_agents (ad_net md)).
    { unfold n_agents. cbn. unfold l. now rewrite map_length. }
    rewrite update_mean_ok.
    + rewrite N. cbn [bind]. unfold mnet. cbn [agents with_agents neigh dir wts]. fold l.
      assert (EM : forall W W', (forall i j, W i j = W' i j) -> forall n, matrix (a:=RA) n W = matrix (a:=RA) n W').
      { intros W W' H n. unfold matrix. apply map_ext. intros i. apply map_ext. intros j. apply H. }
      assert (EC : forall n r, forall i j, all_contributions (a:=RA) n r (contact_probability (a:=RA) lm ops (mirror_settings st) (map mir l)) i j
                 = all_contributions (a:=RA) n r (contact_probability (a:=RA) lm ops st l) i j).
      { intros n r i j. unfold all_contributions.
        match goal with |- ?u i j = ?v i j => cut (u = v); [intros ->; reflexivity|] end.
        apply fold_left_ext. intros W i' _. apply fold_left_ext. intros W' j' _. unfold contribute.
        now rewrite !contact_probability_mirror. }
      rewrite (EM _ _ (EC _ _)). rewrite (EM _ _ (contact_probability_mirror st l)).
      cbn [reciprocity mirror_settings]. rewrite map_length. reflexivity.
    + rewrite N. exact W3.
    + unfold mean_shaped. rewrite N. exact Hms.
    + rewrite N. exact Hcl.
  - apply bind_ok_inv in E as ([h0 s0] & E & E2). inversion E2; subst h0 cpl s0.
    rewrite (probabilistic_with (a:=RA) lm g q ops l (map mir l) st (mirror_settings st)); auto.
    + rewrite E. reflexivity.
    + apply map_length.
    + intros i x x' E1 E3. rewrite nth_error_map, E1 in E3. cbn in E3. inversion E3. apply Hac.
    + intros i j. apply homophily_mirror.
Qed.
End Agents.

Lemma with_bots_mirror st (xs : list R) : (n_bots st <= length (bot_opinion st))%nat ->
  with_bots (a:=RA) (mirror_settings st) (map Ropp xs) = map Ropp (with_bots (a:=RA) st xs).
Proof.
  intros Hb. unfold with_bots. rewrite map_length, map_map. apply map_ext. intros i.
  cbn [n_bots bot_opinion mirror_settings f0 RA]. destruct (i <? n_bots st)%nat; apply nth_map_Ropp.
Qed.

Lemma opp_axpy x h k : - x + h * - k = - (x + h * k).
Proof. ring. Qed.
Lemma opp_rk4 x h k1 k2 k3 k4 : - x + h * (- k1 + 2 * - k2 + 2 * - k3 + - k4) / 6 = - (x + h * (k1 + 2 * k2 + 2 * k3 + k4) / 6).
Proof. field. Qed.
Lemma axpy_mirror (xs ks : list R) (h : R) : axpy (a:=RA) (map Ropp xs) h (map Ropp ks) = map Ropp (axpy (a:=RA) xs h ks).
Proof.
  unfold axpy. revert ks. induction xs as [|x xs IH]; intros [|k ks]; cbn [map combine]; auto. f_equal; [|apply IH].
  apply opp_axpy.
Qed.
Lemma rk4_mirror (f f' : list R -> list R) (h : R) (xs : list R) : (forall ys, f' (map Ropp ys) = map Ropp (f ys)) ->
  rk4_step (a:=RA) f' h (map Ropp xs) = map Ropp (rk4_step (a:=RA) f h xs).
Proof.
  intros Hf. unfold rk4_step. cbv zeta. rewrite !Hf, !axpy_mirror, !Hf, !axpy_mirror, !Hf, !axpy_mirror, !Hf.
  rewrite map_length, map_map. apply map_ext. intros i.
  cbn [fadd fmul fdiv fofZ flit f0 RA]. rewrite !nth_map_Ropp. apply opp_rk4.
Qed.
End Mirror.
