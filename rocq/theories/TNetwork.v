(** Property theorems C01-C07: the Network class. *)
From Verif Require Import Base BaseFacts MNetwork SNetwork PNetwork PNetwork2 WNetwork.
From Coq Require Import Permutation Sorting.Sorted.

Section T.
Context {A W : Type}.
Notation net := (network A W).

(** C01 *)
Theorem C01_toggle_same_graph (g : net) : wf g ->
  exists g', toggle_incoming_outgoing g = Ok g' /\
    dir g' = other (dir g) /\ agents g' = agents g /\ wf g' /\
    Permutation (edges g) (edges g').
Proof.
  intros H. exists (toggled g). split; [apply toggle_exact, wf_toggle_safe, H|].
  repeat split; auto; try apply wf_toggled; auto. now apply toggled_same_graph.
Qed.

Theorem C01_toggle_defined_iff (g : net) :
  is_ok (toggle_incoming_outgoing g) <-> toggle_safe g.
Proof.
  split.
  - intros H. apply is_ok_ex in H as [g' H]. eapply toggle_ok_safe; eauto.
  - intros H. rewrite toggle_exact by auto. exact I.
Qed.

(** C02: the table of network.hpp:24-30. *)
Theorem C02_transpose (g : net) : wf g ->
  exists g', transpose g = Ok g' /\ dir g' = dir g /\ agents g' = agents g /\ wf g' /\
    Permutation (map flip (edges g)) (edges g').
Proof.
  intros H. exists (switch_direction_flag (toggled g)).
  split; [apply transpose_exact, wf_toggle_safe, H|].
  split; [cbn; now destruct (dir g)|]. split; [reflexivity|].
  split; [exact (wf_switch _ (wf_toggled g H))|]. now apply transpose_graph.
Qed.

Theorem C02_switch (g : net) :
  dir (switch_direction_flag g) = other (dir g) /\
  agents (switch_direction_flag g) = agents g /\
  (forall i, get_neighbours (switch_direction_flag g) i = get_neighbours g i) /\
  (forall i, get_weights (switch_direction_flag g) i = get_weights g i) /\
  edges (switch_direction_flag g) = map flip (edges g).
Proof. split; [apply dir_switch|]. do 3 (split; [reflexivity|]). apply edges_switch. Qed.

Theorem C02_switch_is_toggle_then_transpose (g : net) : wf g ->
  exists t g', toggle_incoming_outgoing g = Ok t /\ transpose t = Ok g' /\
    dir g' = dir (switch_direction_flag g) /\ same_graph (switch_direction_flag g) g'.
Proof.
  intros H. destruct (C01_toggle_same_graph g H) as (t & Et & Dt & At & Wt & Pt).
  destruct (C02_transpose t Wt) as (g' & Eg & Dg & Ag & Wg & Pg).
  exists t, g'. repeat split; auto.
  - rewrite Dg, Dt. symmetry. apply dir_switch.
  - cbn. congruence.
  - rewrite edges_switch. eapply Permutation_trans; [apply Permutation_map; exact Pt|exact Pg].
Qed.

Theorem C02_toggle_twice (g : net) : wf g ->
  exists t g', toggle_incoming_outgoing g = Ok t /\ toggle_incoming_outgoing t = Ok g' /\
    dir g' = dir g /\ same_graph g g'.
Proof.
  intros H. destruct (C01_toggle_same_graph g H) as (t & Et & Dt & At & Wt & Pt).
  destruct (C01_toggle_same_graph t Wt) as (g' & Eg & Dg & Ag & Wg & Pg).
  exists t, g'. repeat split; auto; try congruence.
  - rewrite Dg, Dt. apply other_other.
  - eapply Permutation_trans; eauto.
Qed.

Theorem C02_transpose_twice (g : net) : wf g ->
  exists t g', transpose g = Ok t /\ transpose t = Ok g' /\
    dir g' = dir g /\ same_graph g g'.
Proof.
  intros H. destruct (C02_transpose g H) as (t & Et & Dt & At & Wt & Pt).
  destruct (C02_transpose t Wt) as (g' & Eg & Dg & Ag & Wg & Pg).
  exists t, g'. repeat split; auto; try congruence.
  eapply Permutation_trans; [|exact Pg].
  rewrite <- (map_flip_flip (edges g)). now apply Permutation_map.
Qed.

(** C03 *)
Theorem C03_toggle_row (g : net) g' k : wf g -> toggle_incoming_outgoing g = Ok g' ->
  k < length (agents g) ->
  row g' k = flat_map (fun i => map (fun p => (i, snd p)) (filter (fun p => fst p =? k) (row g i)))
                      (seq 0 (length (agents g))).
Proof.
  intros H E Hk. rewrite toggle_exact in E by (now apply wf_toggle_safe).
  inversion E; subst. now apply row_toggled.
Qed.

Theorem C03_toggle_twice_stable_sort (g : net) t g' i : wf g ->
  toggle_incoming_outgoing g = Ok t -> toggle_incoming_outgoing t = Ok g' ->
  i < length (agents g) ->
  Sorted le (map fst (row g' i)) /\
  (forall k, filter (fun p => fst p =? k) (row g' i) = filter (fun p => fst p =? k) (row g i)).
Proof.
  intros H E1 E2 Hi. rewrite toggle_exact in E1 by (now apply wf_toggle_safe).
  inversion E1; subst t. rewrite toggle_exact in E2 by (now apply wf_toggle_safe, wf_toggled).
  inversion E2; subst g'. rewrite row_toggled_twice by auto.
  split; [apply sorted_by_key_flat|]. intros k.
  rewrite filter_flat_map.
  assert (Hk : forall p, In p (row g i) -> fst p < length (agents g)).
  { intros [j w] Hp. apply in_combine_l in Hp. eapply H; eauto. }
  assert (G : forall m a, flat_map (fun x => filter (fun p => fst p =? k) (filter (fun p => fst p =? x) (row g i))) (seq a m)
     = if (a <=? k) && (k <? a + m) then filter (fun p => fst p =? k) (row g i) else []).
  { induction m as [|m IH]; intros a; cbn [seq flat_map].
    - destruct (Nat.leb_spec a k), (Nat.ltb_spec k (a + 0)); auto; lia.
    - rewrite IH. destruct (Nat.eq_dec a k) as [->|Hne].
      + rewrite (proj2 (Nat.leb_gt (S k) k)) by lia. rewrite Nat.leb_refl.
        rewrite (proj2 (Nat.ltb_lt k (k + S m))) by lia. cbn. rewrite app_nil_r.
        clear. induction (row g i) as [|p l IHl]; cbn; auto.
        destruct (fst p =? k) eqn:E; cbn; rewrite ?E; congruence.
      + assert (E0 : filter (fun p => fst p =? k) (filter (fun p => fst p =? a) (row g i)) = []).
        { clear -Hne. induction (row g i) as [|p l IHl]; cbn; auto.
          destruct (fst p =? a) eqn:E; cbn; auto. apply Nat.eqb_eq in E.
          rewrite (proj2 (Nat.eqb_neq _ _)) by lia. auto. }
        rewrite E0. cbn [app].
        destruct (Nat.leb_spec a k), (Nat.leb_spec (S a) k), (Nat.ltb_spec k (a + S m)), (Nat.ltb_spec k (S a + m)); cbn; auto; lia. }
  rewrite G. change (0 <=? k) with true. cbn [andb Nat.add].
  destruct (Nat.ltb_spec k (length (agents g))) as [_|Hge]; auto.
  symmetry. apply filter_none. intros p Hp. specialize (Hk p Hp). lia.
Qed.

Theorem C03_toggle_twice_sorted_id (g : net) t g' : wf g ->
  (forall i, i < length (agents g) -> Sorted le (nth i (neigh g) [])) ->
  toggle_incoming_outgoing g = Ok t -> toggle_incoming_outgoing t = Ok g' -> g' = g.
Proof.
  intros H Hs E1 E2. pose proof H as (H1 & H2 & H3 & H4).
  rewrite toggle_exact in E1 by (now apply wf_toggle_safe).
  inversion E1; subst t. rewrite toggle_exact in E2 by (now apply wf_toggle_safe, wf_toggled).
  inversion E2; subst g'.
  assert (Hrow : forall i, i < length (agents g) -> row (toggled (toggled g)) i = row g i).
  { intros i Hi. rewrite row_toggled_twice by auto. apply flat_filter_sorted_id.
    - intros [j w] Hp. apply in_combine_l in Hp. eauto.
    - unfold row. rewrite map_fst_combine by auto. auto. }
  pose proof (wf_toggled _ (wf_toggled g H)) as (W1 & W2 & W3 & W4).
  destruct g as [ag nl wl d] eqn:Eg. rewrite <- Eg in *. subst ag || idtac.
  assert (Ea : agents (toggled (toggled g)) = agents g) by reflexivity.
  assert (En : neigh (toggled (toggled g)) = neigh g).
  { apply (list_ext_nth _ _ _ []); [rewrite W1, Ea; auto|]. intros i Hi. rewrite W1, Ea in Hi.
    specialize (Hrow i Hi). unfold row in Hrow. apply (f_equal (map fst)) in Hrow.
    rewrite !map_fst_combine in Hrow by auto. exact Hrow. }
  assert (Ew : wts (toggled (toggled g)) = wts g).
  { apply (list_ext_nth _ _ _ []); [rewrite W2, Ea; auto|]. intros i Hi. rewrite W2, Ea in Hi.
    specialize (Hrow i Hi). unfold row in Hrow. apply (f_equal (map snd)) in Hrow.
    rewrite !map_snd_combine in Hrow by auto. exact Hrow. }
  assert (Ed : dir (toggled (toggled g)) = dir g) by (cbn; apply other_other).
  destruct (toggled (toggled g)) as [a b c e], g as [a' b' c' e']. cbn in *. congruence.
Qed.

(** C04 *)
Theorem C04_remove_double_counting (wadd : W -> W -> W) sorter (g : net) :
  sorter_ok sorter -> wf g ->
  exists g', remove_double_counting wadd sorter g = Ok g' /\ wf g' /\
    agents g' = agents g /\ dir g' = dir g /\
    forall i, i < length (agents g) -> merged wadd (row g i) (row g' i).
Proof.
  intros Hs H. pose proof (rdc_ok wadd sorter Hs g H) as Hr.
  apply okp_ex in Hr as (g' & E & R). exists g'. tauto.
Qed.

(** ... with an associative and commutative addition the kept weight is the sum of the old
    weights in the order in which they were stored. *)
Theorem C04_sum (wadd : W -> W -> W) sorter (g : net) g' i j w :
  (forall a b c, wadd a (wadd b c) = wadd (wadd a b) c) -> (forall a b, wadd a b = wadd b a) ->
  sorter_ok sorter -> wf g -> i < length (agents g) ->
  remove_double_counting wadd sorter g = Ok g' -> In (j, w) (row g' i) ->
  exists w0 ws, map snd (filter (fun p => fst p =? j) (row g i)) = w0 :: ws /\
                w = fold_left wadd ws w0.
Proof.
  intros Ha Hc Hs H Hi E Hin. pose proof (rdc_ok wadd sorter Hs g H) as Hr.
  rewrite E in Hr. destruct Hr as (_ & _ & _ & M). destruct (M i Hi) as (_ & _ & M3).
  destruct (M3 j w Hin) as (w0 & ws & HP & ->).
  destruct (map snd (filter (fun p => fst p =? j) (row g i))) as [|v0 vs] eqn:Ev.
  { apply Permutation_sym, Permutation_nil in HP. discriminate. }
  exists v0, vs. split; auto.
  assert (Hfold : forall l a b, fold_left wadd l (wadd a b) = wadd a (fold_left wadd l b)).
  { clear -Ha. induction l as [|x l IH]; intros a b; cbn; auto. rewrite <- Ha. apply IH. }
  assert (G : forall l l', Permutation l l' -> forall a s t, l = a :: s -> forall b s', l' = b :: s' ->
     t = tt -> fold_left wadd s a = fold_left wadd s' b).
  { clear -Ha Hc Hfold. intros l l' HP.
    assert (Hany : forall l l', Permutation l l' -> forall a, fold_left wadd l a = fold_left wadd l' a).
    { clear l l' HP. induction 1 as [|x l l' _ IH|x y l|l1 l2 l3 _ IH1 _ IH2]; intros a; cbn; auto.
      - f_equal. rewrite <- !Ha. f_equal. apply Hc.
      - congruence. }
    induction HP as [|x l l' HP IH|x y l|l1 l2 l3 HP1 IH1 HP2 IH2]; intros a s t E1 b s' E2 Et.
    - discriminate.
    - inversion E1; inversion E2; subst. now apply Hany.
    - inversion E1; inversion E2; subst. cbn. now rewrite Hc.
    - destruct l2 as [|c s2]; [subst; apply Permutation_sym, Permutation_nil in HP1; discriminate|].
      rewrite (IH1 a s t E1 c s2 eq_refl Et). eapply IH2; eauto. }
  exact (G _ _ HP w0 ws tt eq_refl v0 vs eq_refl eq_refl).
Qed.

Theorem C04_idempotent (wadd : W -> W -> W) sorter sorter' (g : net) g' :
  sorter_ok sorter -> sorter_ok sorter' -> wf g ->
  remove_double_counting wadd sorter g = Ok g' ->
  remove_double_counting wadd sorter' g' = Ok g'.
Proof.
  intros Hs Hs' H E. pose proof (rdc_ok wadd sorter Hs g H) as Hr.
  rewrite E in Hr. destruct Hr as (W' & Ag & _ & M).
  apply rdc_idempotent_row_sorted; auto. rewrite Ag. intros i Hi.
  destruct (M i Hi) as (M1 & _). unfold row in M1. rewrite map_fst_combine in M1; auto.
  apply W'. congruence.
Qed.

(** C05 *)
Theorem C05_history (wadd : W -> W -> W) sorter (g : net) (os : list (net_op W)) :
  sorter_ok sorter -> wf g -> Forall (op_in_range (length (agents g))) os ->
  wf (run wadd sorter g os) /\ agents (run wadd sorter g os) = agents g.
Proof. intros. now apply run_ok. Qed.

(** ... and every call of such a history either succeeds or throws and changes nothing. *)
Theorem C05_no_undefined_call (wadd : W -> W -> W) sorter (g : net) os o :
  sorter_ok sorter -> wf g -> Forall (op_in_range (length (agents g))) (os ++ [o]) ->
  let g' := run wadd sorter g os in
  snd (net_step wadd sorter g' o) = Ok tt \/
  (snd (net_step wadd sorter g' o) = Throw ExRuntime /\ fst (net_step wadd sorter g' o) = g').
Proof.
  intros Hs H HF. apply Forall_app in HF as [HF Ho]. inversion Ho; subst.
  destruct (run_ok wadd sorter os Hs g H HF) as [W' Ag].
  apply step_ok; auto. now rewrite Ag.
Qed.

Theorem C05_constructors (d : A) n (ag : list A) (nl : list (list nat)) (wl : list (list W)) dr :
  wf (net_sized d n : net) /\ wf (net_of_agents ag : net) /\
  (length wl = length nl ->
   (forall i, i < length nl -> length (nth i nl []) = length (nth i wl [])) ->
   (forall i j, In j (nth i nl []) -> j < length nl) ->
   wf (net_of_lists d nl wl dr)).
Proof.
  split; [apply wf_sized|]. split; [apply wf_of_agents|].
  intros H1 H2 H3. unfold wf, net_of_lists. cbn. rewrite repeat_length. auto.
Qed.

(** C06 *)
Theorem C06_set_weights (g : net) i ns ws :
  wf g -> i < length (agents g) -> get_neighbours g i = Ok ns ->
  (length ns = length ws ->
     exists h, set_weights g i ws = (h, Ok tt) /\ row_replaced g h i ns ws) /\
  (length ns <> length ws -> set_weights g i ws = (g, Throw ExRuntime)).
Proof.
  intros (H1 & H2 & _) Hi E. split; intros HL.
  - apply set_weights_ok; auto. lia.
  - eapply set_weights_throw; eauto.
Qed.

Theorem C06_set_neighbours (g : net) i ns ws :
  wf g -> i < length (agents g) ->
  (length ns = length ws ->
     exists h, set_neighbours_and_weights g i ns ws = (h, Ok tt) /\ row_replaced g h i ns ws) /\
  (length ns <> length ws -> set_neighbours_and_weights g i ns ws = (g, Throw ExRuntime)).
Proof.
  intros (H1 & H2 & _) Hi. split; intros HL.
  - apply set_neighbours_ok; auto; lia.
  - now apply set_neighbours_throw.
Qed.

Theorem C06_set_neighbours_const (g : net) i ns w :
  wf g -> i < length (agents g) ->
  exists h, set_neighbours_const g i ns w = Ok h /\ row_replaced g h i ns (repeat w (length ns)).
Proof. intros (H1 & H2 & _) Hi. apply set_neighbours_const_ok; lia. Qed.

Theorem C06_push_back (g : net) i ns ws j w :
  get_neighbours g i = Ok ns -> get_weights g i = Ok ws ->
  exists h, push_back_neighbour_and_weight g i j w = Ok h /\
            row_replaced g h i (ns ++ [j]) (ws ++ [w]).
Proof. intros. now apply push_back_ok. Qed.

(** C07: the count is exact as long as it fits the int accumulator ... *)
Theorem C07_n_edges_exact (g : net) : wf g ->
  (Z.of_nat (length (edges g)) < 2 ^ 31)%Z ->
  n_edges_total g = Z.of_nat (length (edges g)) /\
  length (edges g) = list_sum (map (@length nat) (neigh g)).
Proof.
  intros H HE. rewrite (length_edges g H) in *. split; auto. now apply n_edges_total_sum.
Qed.

(** ... and in general it is the true count reduced to a 32-bit int. *)
Theorem C07_n_edges_general (g : net) : wf g ->
  n_edges_total g = to_size_t (to_int32 (Z.of_nat (length (edges g)))).
Proof. intros H. rewrite (length_edges g H). apply n_edges_total_wrap. Qed.

Theorem C07_row (g : net) i : wf g -> i < length (agents g) ->
  n_edges_at g i = Ok (length (row g i)).
Proof.
  intros (H1 & H2 & H3 & _) Hi. unfold n_edges_at. rewrite (vget_lt _ _ _ []) by lia. cbn.
  unfold row. rewrite combine_length, <- H3 by auto. f_equal. lia.
Qed.

Theorem C07_invariant (g : net) : wf g ->
  (exists t, toggle_incoming_outgoing g = Ok t /\ n_edges_total t = n_edges_total g) /\
  (exists t, transpose g = Ok t /\ n_edges_total t = n_edges_total g) /\
  n_edges_total (switch_direction_flag g) = n_edges_total g /\
  n_edges_total (clear g) = 0%Z.
Proof.
  intros H. split; [|split; [|split; [reflexivity|]]].
  - destruct (C01_toggle_same_graph g H) as (t & E & _ & _ & Wt & P). exists t. split; auto.
    rewrite !C07_n_edges_general by auto. now rewrite (Permutation_length P).
  - destruct (C02_transpose g H) as (t & E & _ & _ & Wt & P). exists t. split; auto.
    rewrite !C07_n_edges_general by auto. apply Permutation_length in P. rewrite map_length in P.
    now rewrite P.
  - rewrite n_edges_total_wrap. cbn [clear neigh]. rewrite map_map.
    assert (E : list_sum (map (fun _ : list nat => length (@nil nat)) (neigh g)) = 0).
    { induction (neigh g); cbn; auto. }
    rewrite E. reflexivity.
Qed.

(** C05. What the constructors build: the given number of agents, no edges, or exactly the given lists. *)
Theorem C05_constructed (d : A) n (ag : list A) (nl : list (list nat)) (wl : list (list W)) dr :
  n_agents (net_sized d n : net) = n /\ dir (net_sized d n : net) = Incoming /\
  (forall i, i < n -> nth_error (agents (net_sized d n : net)) i = Some d /\
     get_neighbours (net_sized d n : net) i = Ok [] /\ get_weights (net_sized d n : net) i = Ok []) /\
  agents (net_of_agents ag : net) = ag /\ dir (net_of_agents ag : net) = Incoming /\
  (forall i, i < length ag -> get_neighbours (net_of_agents ag : net) i = Ok [] /\
     get_weights (net_of_agents ag : net) i = Ok []) /\
  n_agents (net_of_lists d nl wl dr) = length nl /\ dir (net_of_lists d nl wl dr) = dr /\
  (forall i, get_neighbours (net_of_lists d nl wl dr) i = match nth_error nl i with Some r => Ok r | None => UB UbIndex end) /\
  (forall i, get_weights (net_of_lists d nl wl dr) i = match nth_error wl i with Some r => Ok r | None => UB UbIndex end).
Proof.
  assert (R : forall (T : Type) (x : T) m i, i < m -> nth_error (repeat x m) i = Some x).
  { intros T x m. induction m as [|m IH]; intros [|i] Hi; cbn; try lia; auto. apply IH. lia. }
  unfold net_sized, net_of_agents, net_of_lists, n_agents, get_neighbours, get_weights, vget. cbn [agents neigh wts dir].
  rewrite !repeat_length. repeat split; auto; rewrite R by assumption; auto.
Qed.

(** C06. clear removes every edge and nothing else. *)
Theorem C06_clear (g : net) : wf g ->
  agents (clear g) = agents g /\ dir (clear g) = dir g /\ wf (clear g) /\ edges (clear g) = [] /\
  forall i, i < length (agents g) -> get_neighbours (clear g) i = Ok [] /\ get_weights (clear g) i = Ok [].
Proof.
  intros (H1 & H2 & H3 & H4).
  assert (N : forall (T U : Type) (l : list (list T)) i, nth i (map (fun _ : list T => ([] : list U)) l) [] = []).
  { intros T U l. induction l as [|x l IH]; intros [|i]; cbn; auto. }
  assert (G : forall (T U : Type) (l : list (list T)) i, i < length l -> nth_error (map (fun _ : list T => ([] : list U)) l) i = Some []).
  { intros T U l. induction l as [|x l IH]; intros [|i]; cbn; intros; try lia; auto. apply IH. lia. }
  split; [reflexivity|]. split; [reflexivity|]. split; [|split].
  - unfold wf, clear. cbn [agents neigh wts]. rewrite !map_length. split; auto. split; auto. split.
    + intros i Hi. rewrite !N. reflexivity.
    + intros i j. rewrite N. intros [].
  - unfold edges, clear, row. cbn [neigh wts dir]. rewrite map_length.
    induction (seq 0 (length (neigh g))) as [|i l IH]; cbn [flat_map]; auto. rewrite IH, !N. reflexivity.
  - intros i Hi. unfold get_neighbours, get_weights, vget, clear. cbn [neigh wts]. rewrite !G by lia. auto.
Qed.

End T.

(** C07: the count can be wrong: with 65536 agents and a complete graph it is 0. *)
Theorem C07_n_edges_refuted :
  exists g : network unit unit, wf g /\ n_edges_total g <> Z.of_nat (length (edges g)).
Proof.
  set (n := Z.to_nat 65536).
  set (g := mkNet (repeat tt n) (repeat (seq 0 n) n) (repeat (repeat tt n) n) Incoming).
  assert (H : wf g).
  { unfold wf, g. cbn. rewrite !repeat_length. repeat split; auto.
    - intros i Hi. rewrite (nth_indep _ [] (seq 0 n)) by (now rewrite repeat_length).
      rewrite nth_repeat. rewrite (nth_indep _ [] (repeat tt n)) by (now rewrite repeat_length).
      rewrite nth_repeat. now rewrite seq_length, repeat_length.
    - intros i j Hj. destruct (Nat.lt_ge_cases i n) as [Hi|Hi].
      + rewrite (nth_indep _ [] (seq 0 n)) in Hj by (now rewrite repeat_length).
        rewrite nth_repeat in Hj. apply in_seq in Hj. lia.
      + rewrite nth_overflow in Hj by (now rewrite repeat_length). destruct Hj. }
  exists g. split; [exact H|]. rewrite C07_n_edges_general by exact H.
  assert (E : Z.of_nat (length (edges g)) = (2 ^ 32)%Z).
  { rewrite length_edges by exact H. unfold g. cbn [neigh].
    assert (G : forall m, Z.of_nat (list_sum (map (@length nat) (repeat (seq 0 n) m))) = (Z.of_nat m * Z.of_nat n)%Z).
    { induction m as [|m IH]; [reflexivity|]. cbn [repeat map list_sum fold_right].
      change (fold_right Nat.add 0 (map (length (A:=nat)) (repeat (seq 0 n) m)))
        with (list_sum (map (@length nat) (repeat (seq 0 n) m))).
      rewrite Nat2Z.inj_add, IH, seq_length. rewrite Nat2Z.inj_succ. ring. }
    rewrite G. unfold n. rewrite Z2Nat.id by lia. reflexivity. }
  rewrite E. vm_compute. discriminate.
Qed.

(** Concrete, non-trivial instances of the hypotheses. *)
Definition ex_net : network nat nat :=
  mkNet [10; 11; 12] [[1; 0; 1]; [2]; [0; 1; 0]] [[5; 6; 7]; [8]; [1; 2; 3]] Incoming.

Example ex_wf : wf ex_net.
Proof.
  unfold wf, ex_net; cbn. repeat split; auto.
  - intros [|[|[|i]]] Hi; cbn in *; auto; lia.
  - intros [|[|[|[|i]]]] j; cbn; intuition lia.
Qed.

Example ex_toggle :
  toggle_incoming_outgoing ex_net =
  Ok (mkNet [10; 11; 12] [[0; 2; 2]; [0; 0; 2]; [1]] [[6; 1; 3]; [5; 7; 2]; [8]] Outgoing).
Proof. reflexivity. Qed.

Example ex_rdc :
  remove_double_counting Nat.add isort ex_net =
  Ok (mkNet [10; 11; 12] [[0; 1]; [2]; [0; 1]] [[6; 12]; [8]; [4; 2]] Incoming).
Proof. reflexivity. Qed.

Example ex_sorter : sorter_ok isort.
Proof. exact isort_ok. Qed.

Example ex_ops : Forall (op_in_range 3)
  [OpSetWeights 1 [4]; OpToggle; OpSetNeighbours 2 [0; 1] [7]; OpPushBack 0 2 9; OpRemoveDoubleCounting; OpClear].
Proof. repeat constructor; cbn; lia. Qed.

Example ex_throw : set_neighbours_and_weights ex_net 2 [0; 1] [7] = (ex_net, Throw ExRuntime).
Proof. reflexivity. Qed.

Print Assumptions C01_toggle_same_graph.
Print Assumptions C01_toggle_defined_iff.
Print Assumptions C02_transpose.
Print Assumptions C02_switch.
Print Assumptions C02_switch_is_toggle_then_transpose.
Print Assumptions C02_toggle_twice.
Print Assumptions C02_transpose_twice.
Print Assumptions C03_toggle_row.
Print Assumptions C03_toggle_twice_stable_sort.
Print Assumptions C03_toggle_twice_sorted_id.
Print Assumptions C04_remove_double_counting.
Print Assumptions C04_sum.
Print Assumptions C04_idempotent.
Print Assumptions C05_history.
Print Assumptions C05_no_undefined_call.
Print Assumptions C05_constructors.
Print Assumptions C05_constructed.
Print Assumptions C06_set_weights.
Print Assumptions C06_set_neighbours.
Print Assumptions C06_set_neighbours_const.
Print Assumptions C06_push_back.
Print Assumptions C06_clear.
Print Assumptions C07_n_edges_exact.
Print Assumptions C07_n_edges_general.
Print Assumptions C07_row.
Print Assumptions C07_invariant.
Print Assumptions C07_n_edges_refuted.
