(** Property theorems C63 and C64: the law of the whole sample, and of the contacts of an active agent. *)
From Verif Require Import Base BaseFacts Arith64 MNetwork MAgents MRandom SRandom PRandom RFacts PReservoir WRandom MActivity SActivity PActNet PNetwork2
  SProb PProb PProb2 PProb3 PProb4 PProb5 PProb6 PProb7 PProb8 PProb9 TRandom TProb.
From Coq Require Import Permutation Reals Lra.
From Coquelicot Require Import Coquelicot.
Local Open Scope R_scope.

(** C63. Asked for k indices, the sampler draws successively without replacement, each time in proportion
    to the weights of the indices not yet drawn: the probability that its output, read from the back, is
    the sequence L is w_L1 / W * w_L2 / (W - w_L1) * ... At most one weight is zero, and none if k = n. *)
Theorem C63_successive_sampling (m : Libm EA) (q : PQ EA) (w : nat -> R) k n z (L : list nat) buffer :
  lpow EA m = epow -> llog EA m = elog -> pq_bag q -> pq_ordered (a:=EA) (fun x : ext => exists r, x = Fin r) q ->
  (1 <= k <= n)%nat -> (forall j, (j < n)%nat -> 0 <= w j) -> (forall j, (j < n)%nat -> j <> z -> 0 < w j) ->
  ((k < n)%nat \/ forall j, (j < n)%nat -> 0 < w j) ->
  length L = k -> NoDup L -> (forall i, In i L -> (i < n)%nat) ->
  expects (k + S (2 * (n - k)))
    (fun us => of_output (fun out => same (rev out) L) (reservoir_sampling_A_ExpJ m tape_rng q k n (fun j => Ok (Fin (w j))) buffer us))
    (successive w L (wsum w 0 n)).
Proof.
  intros Hp Hl Hq Ho Hk Hn Hz Hf H1 H2 H3. apply (expj_law m q w _ n k z); auto. apply (a_res_law q w Hq Ho k n z); auto.
Qed.

(** Hence the expectation of any function of the output is the sum of its values weighted with these
    probabilities, over all sequences of k different indices. *)
Theorem C63_expectation (m : Libm EA) (q : PQ EA) (w : nat -> R) k n z (f : list nat -> R) buffer :
  lpow EA m = epow -> llog EA m = elog -> pq_bag q -> pq_ordered (a:=EA) (fun x : ext => exists r, x = Fin r) q ->
  (1 <= k <= n)%nat -> (forall j, (j < n)%nat -> 0 <= w j) -> (forall j, (j < n)%nat -> j <> z -> 0 < w j) ->
  ((k < n)%nat \/ forall j, (j < n)%nat -> 0 < w j) ->
  expects (k + S (2 * (n - k)))
    (fun us => of_output f (reservoir_sampling_A_ExpJ m tape_rng q k n (fun j => Ok (Fin (w j))) buffer us))
    (total (fun L => f (rev L) * successive w L (wsum w 0 n)) (arrangements k (seq 0 n))).
Proof.
  intros Hp Hl Hq Ho Hk Hn Hz Hf. apply (expj_law m q w _ n k z); auto. apply (a_res_expectation q w Hq Ho k n z); auto.
Qed.
Theorem C63_arrangements k l s : In s (arrangements k l) <-> length s = k /\ NoDup s /\ incl s l.
Proof. apply in_arrangements. Qed.

(** Weights 1, 2, 3: the probability of drawing 2 first and then 0 is 3/6 * 1/3 = 1/6. *)
Example C63_instance :
  expects 5 (fun us => of_output (fun out => same (rev out) (2 :: 0 :: nil)%nat) (reservoir_sampling_A_ExpJ ext_libm tape_rng (list_pq EA) 2 3 (fun j => Ok (Fin (INR j + 1))) [] us)) (1 / 6).
Proof.
  assert (Hw : forall j, 0 < INR j + 1) by (intros j; pose proof (pos_INR j); lra).
  replace (1 / 6) with (successive (fun j => INR j + 1) (2 :: 0 :: nil)%nat (wsum (fun j => INR j + 1) 0 3)) by (cbn; field).
  apply (C63_successive_sampling ext_libm (list_pq EA) (fun j => INR j + 1) 2 3 7); auto.
  - apply list_pq_bag.
  - apply list_pq_ordered.
  - intros; left; auto.
  - repeat constructor; cbn; intuition discriminate.
  - cbn. intros i [<-|[<-|[]]]; lia.
Qed.

(** C64. The contacts of the activity-driven model: agent [i] is active with probability equal to its
    activity, and then draws its m < n contacts successively without replacement, each in proportion to
    max(1e-10, |x_i - x_j|)^(-homophily), itself never. (The neighbours are listed in the reverse of the
    order in which they are drawn.) *)
Definition row_list (A : Type) (i : nat) (L : list nat) (r : res (network A ext * list nat * list (nat * nat) * list R)) : R :=
  match r with
  | Ok (h, _, _, _) => match get_neighbours h i with Ok c => same (rev c) L | _ => 0 end
  | _ => 0
  end.
Arguments row_list {A} i L r.

Theorem C64_contacts_law (lm : Libm EA) (q : PQ EA) (A : Type) (ops : agent_ops (F EA) A)
  (st : ad_settings (F EA)) (h : network A (F EA)) (X : nat -> R) (beta act : R) (x : A) i k (L : list nat) buffer edges_so_far :
  lpow EA lm = epow -> llog EA lm = elog -> pq_bag q -> pq_ordered (a:=EA) (fun x : ext => exists r, x = Fin r) q ->
  settings_fit (a:=EA) st (n_agents h) -> length (neigh h) = n_agents h -> length (wts h) = n_agents h ->
  (i < n_agents h)%nat -> (1 <= k < n_agents h)%nat ->
  (forall j y, nth_error (agents h) j = Some y -> get_opinion ops y = Fin (X j)) ->
  homophily_of (a:=EA) st i = Fin beta -> contact_count (a:=EA) st i = k ->
  nth_error (agents h) i = Some x -> get_activity ops x = Fin act -> 0 <= act <= 1 ->
  length L = k -> NoDup L -> (forall j, In j L -> (j < n_agents h)%nat) ->
  let weight j := if (j =? i)%nat then 0 else Rpower (Rmax (1 / 10 ^ 10) (Rabs (X i - X j))) (- beta) in
  expects (S (k + S (2 * (n_agents h - k))))
    (fun us => row_list i L (contact_step (a:=EA) lm tape_rng q ops st i (h, buffer, edges_so_far, us)))
    (act * successive weight L (wsum weight 0 (n_agents h))).
Proof.
  intros Hp Hl Hq Ho Hf Hneigh Hwts Hi Hkn HX Hbeta Hc Ex Eact Hact HLk HLn HLr weight.
  assert (HW : forall j, (j < n_agents h)%nat -> homophily_weight (a:=EA) lm ops st (agents h) i j = Ok (Fin (weight j))).
  { intros j Hk. rewrite (homophily_weight_ok (a:=EA) lm ops st (agents h) (n_agents h) i j Hf Hi Hk). unfold affinity, weight.
    destruct (Nat.eqb_spec j i) as [->|Hne]; [reflexivity|]. rewrite Ex.
    destruct (nth_error (agents h) j) as [y|] eqn:Ey. 2:{ apply nth_error_None in Ey. unfold n_agents in Hk. lia. }
    rewrite (HX i x Ex), (HX j y Ey), Hbeta, Hp. f_equal.
    assert (EL : @MDist.lit10 EA 1 10 = Fin (1 / 10 ^ 10)).
    { unfold MDist.lit10. change (match (10 ^ Z.of_N 10)%Z with Zpos q0 => q0 | _ => 1%positive end) with 10000000000%positive. cbn [flit EA]. f_equal. f_equal.
      cbn [pow]. lra. }
    rewrite EL. unfold fmax. cbn [EA fabs fsub flt eabs eadd eopp eltb fopp]. set (T := 1 / 10 ^ 10) in *.
    assert (HT : 0 < T) by (unfold T; apply Rdiv_lt_0_compat; [lra|apply pow_lt; lra]). clearbody T.
    replace (X i + - X j) with (X i - X j) by ring. set (d := Rabs (X i - X j)).
    match goal with |- epow ?b _ = _ => assert (EM : b = Fin (Rmax T d)) end.
    { unfold Rltb. destruct (Rlt_dec T d); f_equal; [rewrite Rmax_right; lra|rewrite Rmax_left; lra]. }
    rewrite EM. assert (HM : 0 < Rmax T d) by (pose proof (Rmax_l T d); lra). set (M := Rmax T d) in *. clearbody M.
    destruct (Req_dec beta 0) as [-> |Nb].
    - unfold epow. destruct (Req_EM_T (- 0) 0); [|lra]. f_equal. unfold Rpower. replace (- 0 * ln M) with 0 by ring. now rewrite exp_0.
    - apply pow_fin; lra. }
  assert (Hnn : forall j, (j < n_agents h)%nat -> 0 <= weight j).
  { intros j _. unfold weight. destruct (j =? i)%nat; [lra|]. left. apply exp_pos. }
  assert (Hps : forall j, j <> i -> 0 < weight j).
  { intros j Hk. unfold weight. destruct (Nat.eqb_spec j i); [contradiction|]. apply exp_pos. }
  set (P := successive weight L (wsum weight 0 (n_agents h))).
  assert (Hlaw : expects (k + S (2 * (n_agents h - k))) (fun us => of_output (fun out => same (rev out) L) (reservoir_sampling_A_ExpJ lm tape_rng q k (n_agents h) (homophily_weight (a:=EA) lm ops st (agents h) i) buffer us)) P).
  { apply (expj_law lm q weight _ (n_agents h) k i); auto; [lia|].
    apply (a_res_law q weight Hq Ho k (n_agents h) i); auto; [lia|left; lia]. }
  assert (Hm : exists mt, m_of (a:=EA) st i = Ok mt /\ Z.to_nat (to_size_t mt) = k).
  { unfold contact_count in Hc. unfold m_of. rewrite bot_guard. destruct Hf as (F1 & F2 & F3 & F4 & F5).
    destruct (Nat.ltb_spec i (n_bots st)) as [Hb|Hb].
    - exists (nth i (bot_m st) 0%Z). split; [apply vget_lt; lia|]. specialize (F5 i Hb). rewrite to_size_t_small; [exact Hc|lia].
    - exists (m st). split; auto. rewrite to_size_t_small; [exact Hc|lia]. }
  destruct Hm as (mt & Em & Emt).
  exists (fun u => if Rlt_dec u act then P else 0), nil. split.
  - intros u Hu _.
    assert (ES : forall us, contact_step (a:=EA) lm tape_rng q ops st i (h, buffer, edges_so_far, u :: us) =
      if Rlt_dec u act then
        '(ca, s) <- reservoir_sampling_A_ExpJ lm tape_rng q k (n_agents h) (homophily_weight (a:=EA) lm ops st (agents h) i) buffer us ;;
        network <- set_neighbours_const h i ca (f1 EA) ;;
        Ok (network, ca, fold_left (fun b idx_outgoing => set_insert b (i, idx_outgoing)) ca edges_so_far, s)
      else network <- set_neighbours_const h i [] (f0 EA) ;; Ok (network, buffer, edges_so_far, us)).
    { intros us. unfold contact_step. rewrite tape_draw. unfold vget. rewrite Ex. cbn [bind].
      replace (flt EA (Fin u) (get_activity ops x)) with (if Rlt_dec u act then true else false) by (rewrite Eact; reflexivity).
      destruct (Rlt_dec u act); [|reflexivity]. rewrite Em. cbn [bind]. rewrite Emt. reflexivity. }
    destruct (Rlt_dec u act) as [La|La].
    + apply (expects_ext _ _ _ _) with (2 := Hlaw). intros us HL HU. rewrite ES.
      destruct (reservoir_sampling_A_ExpJ lm tape_rng q k (n_agents h) _ buffer us) as [[ca s]| | |]; try reflexivity.
      cbn [bind of_output]. unfold set_neighbours_const. rewrite vset_ok by (rewrite Hneigh; exact Hi). cbn [bind].
      rewrite vset_ok by (rewrite Hwts; exact Hi). cbn [bind row_list]. unfold get_neighbours, vget. cbn [neigh].
      rewrite nth_error_upd_eq by (rewrite Hneigh; exact Hi). reflexivity.
    + apply (expects_ext _ _ (fun _ => 0)); [|apply expects_const]. intros us HL HU. rewrite ES.
      unfold set_neighbours_const. rewrite vset_ok by (rewrite Hneigh; exact Hi). cbn [bind].
      rewrite vset_ok by (rewrite Hwts; exact Hi). cbn [bind row_list]. unfold get_neighbours, vget. cbn [neigh].
      rewrite nth_error_upd_eq by (rewrite Hneigh; exact Hi). destruct L; [cbn in HLk; lia|reflexivity].
  - destruct (Rlt_dec 0 act) as [Ha0|Ha0]; [destruct (Rlt_dec act 1) as [Ha1|Ha1]|].
    + apply (int_step _ act P 0); auto; [ring| |]; intros u Hu; destruct (Rlt_dec u act); auto; lra.
    + replace act with 1 in * by lra. rewrite Rmult_1_l. apply (is_RInt_ext (fun _ => P)); [|apply is_RInt_const01].
      intros u Hu. rewrite Rmin_left, Rmax_right in Hu by lra. destruct (Rlt_dec u 1); [reflexivity|lra].
    + replace act with 0 in * by lra. rewrite Rmult_0_l. apply (is_RInt_ext (fun _ => 0)); [|apply is_RInt_const01].
      intros u Hu. rewrite Rmin_left, Rmax_right in Hu by lra. destruct (Rlt_dec u 0); [lra|reflexivity].
Qed.


(** Three agents with opinions 0, 1, 3; agent 0 with activity 1/2, homophily 1 and m = 2 draws 1 and then 2 with
    probability 1/2 * 1 / (1 + 1/3) = 3/8. *)
Definition c64_settings : ad_settings ext :=
  mkADS None (Fin 0) 2 (Fin 0) (Fin 0) (Fin 0) (Fin 1) (Fin 0) (Fin 0) false false 0 nil nil nil nil false (Fin 1) (Fin 0) (Fin 0) (Fin 0).
Example C64_instance :
  expects 6 (fun us => row_list 0 (1 :: 2 :: nil)%nat (contact_step (a:=EA) ext_libm tape_rng (list_pq EA) (activity_ops ext) c64_settings 0 (c62_net, [], [], us))) (3 / 8).
Proof.
  set (X := fun k => match k with O => 0 | 1%nat => 1 | _ => 3 end).
  pose proof (C64_contacts_law ext_libm (list_pq EA) (activity_agent ext) (activity_ops ext) c64_settings c62_net X 1 (1/2)
    (mkActivity (Fin 0) (Fin (1/2)) (Fin 1)) 0 2 (1 :: 2 :: nil)%nat [] [] eq_refl eq_refl (list_pq_bag EA) list_pq_ordered) as H.
  change (n_agents c62_net) with 3%nat in H. cbv zeta in H.
  match type of H with _ -> _ -> _ -> _ -> _ -> _ -> _ -> _ -> _ -> _ -> _ -> _ -> _ -> _ -> expects _ _ ?v => replace (3 / 8) with v end.
  - apply H; auto; try lra.
    + unfold settings_fit. cbn [m n_bots bot_m bot_homophily c64_settings length]. split; [lia|]. split; [lia|]. split; [lia|]. split; [lia|]. intros; lia.
    + intros [|[|[|k]]] y Hy; cbn in Hy; try (injection Hy as <-; reflexivity). destruct k; discriminate.
    + repeat constructor; cbn; intuition discriminate.
    + cbn. intros j [<-|[<-|[]]]; lia.
  - cbn [wsum successive Nat.eqb X]. assert (H1 : forall d, 1 <= d -> Rmax (1 / 10 ^ 10) d = d).
    { intros d Hd. apply Rmax_right. assert (1 / 10 ^ 10 <= 1); [|lra]. apply (Rmult_le_reg_r (10 ^ 10)); [apply pow_lt; lra|].
      unfold Rdiv. rewrite Rmult_assoc, Rinv_l by (apply pow_nonzero; lra). rewrite !Rmult_1_l. cbn [pow]. lra. }
    replace (Rabs (0 - 1)) with 1 by (rewrite Rabs_left; lra). replace (Rabs (0 - 3)) with 3 by (rewrite Rabs_left; lra).
    rewrite !H1 by lra. rewrite rpower_one. replace (Rpower 3 (- (1))) with (/ 3) by (rewrite Rpower_Ropp, Rpower_1; lra). field.
Qed.

Print Assumptions C63_successive_sampling.
Print Assumptions C63_expectation.
Print Assumptions C63_arrangements.
Print Assumptions C64_contacts_law.
