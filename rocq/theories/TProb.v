(** Property theorems C60-C62: the probability law of weighted sampling, and of the contacts of the
    activity-driven model. *)
From Verif Require Import Base BaseFacts Arith64 MNetwork MAgents MRandom SRandom PRandom RFacts PReservoir WRandom MActivity SActivity PActNet PNetwork2
  SProb PProb PProb2 PProb3 PProb4 PProb5 TRandom.
From Coq Require Import Permutation Reals Lra.
From Coquelicot Require Import Coquelicot.
Local Open Scope R_scope.

(** C60. Asked for one index, the sampler returns [i] with probability w_i / (w_0 + ... + w_(n-1)),
    for weights >= 0 of which the first or the second is positive (exact arithmetic; uniform variates
    independent on (0,1)). *)
Theorem C60_weight_proportional (m : Libm EA) (q : PQ EA) (w : nat -> R) n i buffer :
  lpow EA m = epow -> llog EA m = elog -> pq_bag q -> (i < n)%nat ->
  (forall j, (j < n)%nat -> 0 <= w j) -> (0 < w 0%nat \/ ((1 < n)%nat /\ 0 < w 1%nat)) ->
  expects (2 * n) (fun us => drawn_is i (reservoir_sampling_A_ExpJ m tape_rng q 1 n (fun j => Ok (Fin (w j))) buffer us))
          (w i / wsum w 0 n).
Proof.
  intros Hp Hl Hq Hi Hn [H0|[Hn1 H1]]; apply sexpects_expects.
  - apply law_pos; auto.
  - destruct (Hn 0%nat ltac:(lia)) as [H0|H0]; [apply law_pos; auto|]. apply law_zero; auto.
Qed.

(** The expectation is unique, so this is the only value the probability can have. *)
Theorem C60_unique n f v v' : expects n f v -> expects n f v' -> v = v'.
Proof. apply expects_unique. Qed.

Example C60_instance :
  expects 6 (fun us => drawn_is 2 (reservoir_sampling_A_ExpJ ext_libm tape_rng (list_pq EA) 1 3 (fun j => Ok (Fin (INR j + 1))) [] us)) (3 / 6).
Proof.
  replace (3 / 6) with ((INR 2 + 1) / wsum (fun j => INR j + 1) 0 3) by (cbn; field).
  apply (C60_weight_proportional ext_libm (list_pq EA) (fun j => INR j + 1) 3 2 []); auto.
  - apply list_pq_bag.
  - intros j _. pose proof (pos_INR j). lra.
  - left. cbn. lra.
Qed.

(** The condition on the first two weights is needed: if both are zero, one slot is asked for and every
    other weight is >= 0, the last index is returned always, whatever its weight. *)
Lemma ones_loop (m : Libm EA) (q : PQ EA) (w : nat -> R) (Hp : lpow EA m = epow) (Hl : llog EA m = elog) (Hq : pq_bag q) :
  forall k idx h c X us, pq_items q h = (c, Fin 1) :: nil -> (forall j, (idx <= j < idx + k)%nat -> 0 <= w j) ->
  fle EA (fsub EA X (Fin (w idx))) (f0 EA) = true \/ k = 0%nat -> X = NInf \/ (exists x, X = Fin x /\ x <= 0) ->
  unit_list us -> (2 * k <= length us)%nat ->
  exists h' X' us', for_from idx k (body m q (fun j => Ok (Fin (w j)))) (h, X, us) = Ok (h', X', us') /\
    pq_items q h' = ((if (k =? 0)%nat then c else idx + k - 1)%nat, Fin 1) :: nil.
Proof.
  induction k as [|k IH]; intros idx h c X us Hh Hw Hx HX HU HL; cbn [for_from].
  - exists h, X, us. auto.
  - destruct Hx as [Hx|]; [|discriminate].
    destruct us as [|u1 [|u2 us]]; [cbn in HL; lia|cbn in HL; lia|].
    pose proof (Forall_inv HU) as Hu1. pose proof (Forall_inv_tail HU) as HU1. pose proof (Forall_inv HU1) as Hu2. pose proof (Forall_inv_tail HU1) as HU2. cbn beta in *.
    unfold body at 1. cbn [bind]. rewrite Hx. rewrite (single_top q Hq _ _ Hh). cbn [bind snd]. rewrite tape_draw, Hp, Hl.
    assert (E1 : forall y, epow (Fin 1) (Fin y) = Fin 1).
    { intros y. unfold epow. destruct (Req_EM_T y 0); auto. destruct (Req_EM_T 1 0); [lra|]. unfold Rpow. destruct (Rlt_dec 0 1); [|lra]. now rewrite rpower_one. }
    rewrite E1.
    change (fadd EA (fmul EA (Fin u1) (fsub EA (f1 EA) (Fin 1))) (Fin 1)) with (Fin (u1 * (1 + - 1) + 1)). replace (u1 * (1 + - 1) + 1) with 1 by ring.
    assert (E2 : epow (Fin 1) (fdiv EA (f1 EA) (Fin (w idx))) = Fin 1).
    { cbn [fdiv EA f1 ediv]. destruct (Req_EM_T (w idx) 0); [|apply E1]. unfold sinf. destruct (Rlt_dec 0 1); [|lra]. unfold epow. rewrite Rabs_R1. destruct (Req_EM_T 1 1); [reflexivity|lra]. }
    rewrite E2, tape_draw.
    match goal with |- context [queue_top q ?hh] => assert (Hh' : pq_items q hh = (idx, Fin 1) :: nil) by (apply single_push; auto; eapply single_pop; eauto) end.
    rewrite (single_top q Hq _ _ Hh'). cbn [bind snd].
    assert (EX : fdiv EA (elog (Fin u2)) (elog (Fin 1)) = NInf).
    { rewrite !elog_fin by lra. rewrite ln_1. cbn. destruct (Req_EM_T 0 0); [|lra]. unfold sinf. pose proof (ln_neg u2 Hu2). destruct (Rlt_dec 0 (ln u2)); [lra|]. destruct (Rlt_dec (ln u2) 0); [reflexivity|lra]. }
    rewrite EX.
    destruct (IH (S idx) _ idx NInf us Hh') as (h' & X' & us' & E & Hh2); auto.
    + intros j Hj. apply Hw. lia.
    + cbn in HL. lia.
    + exists h', X', us'. split; [exact E|]. rewrite Hh2. cbn [Nat.eqb]. do 2 f_equal. destruct (Nat.eqb_spec k 0) as [E0|E0]; lia.
Qed.

Theorem C60_two_leading_zeros_refuted (m : Libm EA) (q : PQ EA) (w : nat -> R) n buffer us :
  lpow EA m = epow -> llog EA m = elog -> pq_bag q -> (2 <= n)%nat ->
  (forall j, (j < n)%nat -> 0 <= w j) -> w 0%nat = 0 -> w 1%nat = 0 ->
  length us = (2 * n)%nat -> List.Forall (fun u => 0 < u < 1) us ->
  exists s', reservoir_sampling_A_ExpJ m tape_rng q 1 n (fun j => Ok (Fin (w j))) buffer us = Ok ((n - 1)%nat :: nil, s').
Proof.
  intros Hp Hl Hq Hn Hw H0 H1 HL HU.
  destruct us as [|u0 [|u1 [|u2 [|u3 us]]]]; cbn [length] in HL; try lia.
  pose proof (Forall_inv HU) as Hu0. pose proof (Forall_inv_tail HU) as HU1. pose proof (Forall_inv HU1) as Hu1. pose proof (Forall_inv_tail HU1) as HU2.
  pose proof (Forall_inv HU2) as Hu2. pose proof (Forall_inv_tail HU2) as HU3. pose proof (Forall_inv HU3) as Hu3. pose proof (Forall_inv_tail HU3) as HU4. cbn beta in *.
  rewrite reservoir_unfold by lia. unfold prefix. rewrite tape_draw. cbn [bind]. rewrite tape_draw, Hp, Hl.
  assert (ED : fdiv EA (f1 EA) (Fin 0) = PInf).
  { cbn. destruct (Req_EM_T 0 0); [|lra]. unfold sinf. destruct (Rlt_dec 0 1); [reflexivity|lra]. }
  assert (EP : epow (Fin u0) PInf = Fin 0).
  { unfold epow. rewrite (Rabs_pos_eq u0) by lra. destruct (Req_EM_T u0 1); [lra|]. destruct (Rlt_dec u0 1); [|lra]. reflexivity. }
  rewrite H0, ED, EP.
  match goal with |- context [queue_top q ?h] => assert (E0 : pq_items q h = (0%nat, Fin 0) :: nil) by (apply single_push; [auto|exact (proj1 Hq)]) end.
  rewrite (single_top q Hq _ _ E0). cbn [bind snd].
  assert (EX : fdiv EA (elog (Fin u1)) (elog (Fin 0)) = Fin 0).
  { cbn. destruct (Rlt_dec 0 u1); [|lra]. destruct (Rlt_dec 0 0); [lra|]. destruct (Req_EM_T 0 0); [|lra]. reflexivity. }
  rewrite EX. set (N1 := (n - 1)%nat) at 2. replace (n - 1)%nat with (S (n - 2)) by lia. subst N1. cbn [for_from].
  unfold body at 1. cbn [bind]. rewrite H1.
  change (fle EA (fsub EA (Fin 0) (Fin 0)) (f0 EA)) with (Rleb (0 + - 0) 0). unfold Rleb. destruct (Rle_dec (0 + - 0) 0); [|lra].
  rewrite (single_top q Hq _ _ E0). cbn [bind snd]. rewrite tape_draw, Hp, Hl.
  assert (ET : epow (Fin 0) (Fin 0) = Fin 1). { unfold epow. destruct (Req_EM_T 0 0); [reflexivity|lra]. }
  rewrite ET, ED.
  change (fadd EA (fmul EA (Fin u2) (fsub EA (f1 EA) (Fin 1))) (Fin 1)) with (Fin (u2 * (1 + - 1) + 1)). replace (u2 * (1 + - 1) + 1) with 1 by ring.
  assert (E1 : epow (Fin 1) PInf = Fin 1). { unfold epow. rewrite Rabs_R1. destruct (Req_EM_T 1 1); [reflexivity|lra]. }
  rewrite E1, tape_draw.
  match goal with |- context [queue_top q ?hh] => assert (Hh' : pq_items q hh = (1%nat, Fin 1) :: nil) by (apply single_push; auto; eapply single_pop; eauto) end.
  rewrite (single_top q Hq _ _ Hh'). cbn [bind snd].
  assert (EX2 : fdiv EA (elog (Fin u3)) (elog (Fin 1)) = NInf).
  { rewrite !elog_fin by lra. rewrite ln_1. cbn. destruct (Req_EM_T 0 0); [|lra]. unfold sinf. pose proof (ln_neg u3 Hu3). destruct (Rlt_dec 0 (ln u3)); [lra|]. destruct (Rlt_dec (ln u3) 0); [reflexivity|lra]. }
  rewrite EX2.
  destruct (ones_loop m q w Hp Hl Hq (n - 2) 2 _ 1%nat NInf us Hh') as (h' & X' & us' & E & Hh2); auto.
  - intros j Hj. apply Hw. lia.
  - lia.
  - match type of E with _ = ?rhs => match goal with |- context [for_from ?i ?k ?b ?st] =>
      replace (for_from i k b st) with rhs by (symmetry; exact E) end end.
    cbn [bind]. exists us'.
    replace (n - 1)%nat with (if (n - 2 =? 0)%nat then 1 else 2 + (n - 2) - 1)%nat by (destruct (Nat.eqb_spec (n - 2) 0); lia).
    exact (finish q Hq _ _ _ buffer us' Hh2).
Qed.

(** C61. For any number of slots the sampler has the law of algorithm A-Res, i.e. of the k items with the
    largest keys u_i^(1/w_i): every function of the output has the same expectation (weights positive
    except possibly one, which may be zero). *)
Theorem C61_same_law_as_top_k (m : Libm EA) (q : PQ EA) (w : nat -> R) k n z (f : list nat -> R) buffer v :
  lpow EA m = epow -> llog EA m = elog -> pq_bag q -> pq_ordered (a:=EA) (fun x : ext => exists r, x = Fin r) q ->
  (1 <= k <= n)%nat -> (forall j, (j < n)%nat -> 0 <= w j) -> (forall j, (j < n)%nat -> j <> z -> 0 < w j) ->
  expects n (fun us => f (a_res q w k n us)) v ->
  expects (k + S (2 * (n - k)))
    (fun us => of_output f (reservoir_sampling_A_ExpJ m tape_rng q k n (fun j => Ok (Fin (w j))) buffer us)) v.
Proof. intros Hp Hl Hq Ho Hk Hn Hz HE. apply (expj_law m q w _ n k z); auto. Qed.

(** What A-Res computes: k distinct indices, and no index left out has a larger key than one selected. *)
Theorem C61_top_k (q : PQ EA) (w : nat -> R) k n us :
  pq_bag q -> pq_ordered (a:=EA) (fun x : ext => exists r, x = Fin r) q ->
  (1 <= k <= n)%nat -> length us = n ->
  let out := a_res q w k n us in
  let key i := if Req_EM_T (w i) 0 then 0 else Rpower (nth i us 0) (1 / w i) in
  length out = k /\ NoDup out /\ (forall i, In i out -> (i < n)%nat) /\
  (forall i j, In i out -> (j < n)%nat -> ~ In j out -> key j <= key i).
Proof.
  intros Hq Ho [H1 H2] HL out key'. destruct (a_res_top q w Hq Ho k H1 us n H2 HL) as (A & B & C & D).
  split; [exact A|split; [exact B|split; [exact C|]]]. intros i j Hi Hj Nj. specialize (D i j Hi Hj Nj).
  unfold key, res_key in D. unfold key'. destruct (Req_EM_T (w j) 0), (Req_EM_T (w i) 0); cbn in D; unfold Rleb in D;
    match type of D with (if ?c then _ else _) = _ => destruct c; [assumption|discriminate] end.
Qed.

(** Three equal weights, two slots: index 0 is in the sample with probability 2/3. *)
Definition has0 (out : list nat) : R := if existsb (Nat.eqb 0) out then 1 else 0.
Lemma int_step (h : R -> R) (c a b v : R) : v = c * a + (1 - c) * b -> 0 < c < 1 -> (forall u, 0 < u < c -> h u = a) -> (forall u, c < u < 1 -> h u = b) ->
  is_RInt h 0 1 v.
Proof.
  intros -> Hc Ha Hb. apply (is_RInt_Chasles (V:=R_NormedModule)) with c.
  - apply (is_RInt_ext (fun _ => a)). { intros x Hx. rewrite Rmin_left, Rmax_right in Hx by lra. symmetry. now apply Ha. }
    pose proof (is_RInt_const 0 c a) as H. unfold scal in H. cbn in H. unfold mult in H. cbn in H. now replace ((c - 0) * a) with (c * a) in H by ring.
  - apply (is_RInt_ext (fun _ => b)). { intros x Hx. rewrite Rmin_left, Rmax_right in Hx by lra. symmetry. now apply Hb. }
    apply (is_RInt_const c 1 b).
Qed.
Lemma a_res_3 u0 u1 u2 : 0 < u0 < 1 -> 0 < u1 < 1 -> 0 < u2 < 1 ->
  has0 (a_res (list_pq EA) (fun _ => 1) 2 3 (u0 :: u1 :: u2 :: nil)) = if Rlt_dec u0 u1 then (if Rlt_dec u0 u2 then 0 else 1) else 1.
Proof.
  intros H0 H1 H2. unfold a_res. cbn [res_fill].
  assert (RK : forall u, 0 < u -> res_key 1 u = Fin u).
  { intros u Hu. unfold res_key. destruct (Req_EM_T 1 0); [lra|]. f_equal. replace (1 / 1) with 1 by field. now apply Rpower_1. }
  rewrite !RK by lra. cbn [Nat.sub res_run list_pq pq_top pq_push pq_empty pq_pop select_min fst snd flt EA eltb]. rewrite RK by lra.
  unfold Rltb. destruct (Rlt_dec u0 u1) as [L|L]; cbn [fst snd eltb]; unfold Rltb.
  - destruct (Rlt_dec u0 u2) as [L2|L2]; cbn [drain list_pq pq_top pq_pop select_min fst snd flt EA eltb]; unfold Rltb.
    + destruct (Rlt_dec u1 u2); reflexivity.
    + destruct (Rlt_dec u0 u1); [|lra]. reflexivity.
  - destruct (Rlt_dec u1 u2) as [L2|L2]; cbn [drain list_pq pq_top pq_pop select_min fst snd flt EA eltb]; unfold Rltb.
    + destruct (Rlt_dec u0 u2); reflexivity.
    + destruct (Rlt_dec u0 u1); [lra|]. reflexivity.
Qed.
Example C61_instance :
  expects 5 (fun us => of_output has0 (reservoir_sampling_A_ExpJ ext_libm tape_rng (list_pq EA) 2 3 (fun _ => Ok (Fin 1)) [] us)) (2 / 3).
Proof.
  apply (C61_same_law_as_top_k ext_libm (list_pq EA) (fun _ => 1) 2 3 7 has0 [] (2 / 3)); auto.
  - apply list_pq_bag.
  - apply list_pq_ordered.
  - intros; lra.
  - intros; lra.
  - apply sexpects_expects. exists (fun u0 => 2 * u0 - u0 * u0). split.
    + intros u0 H0. exists (fun u1 => if Rlt_dec u0 u1 then u0 else 1). split.
      * intros u1 H1. exists (fun u2 => if Rlt_dec u0 u1 then (if Rlt_dec u0 u2 then 0 else 1) else 1). split.
        -- intros u2 H2. cbn. apply a_res_3; auto.
        -- destruct (Rlt_dec u0 u1); [|apply is_RInt_const01].
           apply (int_step _ u0 1 0); auto; [ring| |]; intros u Hu; destruct (Rlt_dec u0 u); auto; lra.
      * apply (int_step _ u0 1 u0); auto; [ring| |]; intros u Hu; destruct (Rlt_dec u0 u); auto; lra.
    + replace (2 / 3) with (minus (1 * 1 - 1 * 1 * 1 / 3) (0 * 0 - 0 * 0 * 0 / 3)) by (unfold minus, plus, opp; cbn; field).
      apply (is_RInt_derive (fun u => u * u - u * u * u / 3)).
      * intros x _. auto_derive; auto. field.
      * intros x _. apply continuity_pt_filterlim. apply derivable_continuous_pt. apply ex_derive_Reals_0. auto_derive. auto.
Qed.

(** C62. The contacts of the activity-driven model with m = 1: agent [i] is active with probability
    equal to its activity, and then contacts [j] with probability proportional to
    max(1e-10, |x_i - x_j|)^(-homophily), itself never. *)
Definition row_is (A : Type) (i j : nat) (r : res (network A ext * list nat * list (nat * nat) * list R)) : R :=
  match r with
  | Ok (h, _, _, _) => match get_neighbours h i with Ok (c :: nil) => if (c =? j)%nat then 1 else 0 | _ => 0 end
  | _ => 0
  end.
Arguments row_is {A} i j r.

Theorem C62_single_contact_law (lm : Libm EA) (q : PQ EA) (A : Type) (ops : agent_ops (F EA) A)
  (st : ad_settings (F EA)) (h : network A (F EA)) (X : nat -> R) (beta act : R) (x : A) i j buffer edges_so_far :
  lpow EA lm = epow -> llog EA lm = elog -> pq_bag q ->
  settings_fit (a:=EA) st (n_agents h) -> length (neigh h) = n_agents h -> length (wts h) = n_agents h ->
  (2 <= n_agents h)%nat -> (i < n_agents h)%nat -> (j < n_agents h)%nat ->
  (forall k y, nth_error (agents h) k = Some y -> get_opinion ops y = Fin (X k)) ->
  homophily_of (a:=EA) st i = Fin beta -> contact_count (a:=EA) st i = 1%nat ->
  nth_error (agents h) i = Some x -> get_activity ops x = Fin act -> 0 <= act <= 1 ->
  let weight k := if (k =? i)%nat then 0 else Rpower (Rmax (1 / 10 ^ 10) (Rabs (X i - X k))) (- beta) in
  expects (S (2 * n_agents h))
    (fun us => row_is i j (contact_step (a:=EA) lm tape_rng q ops st i (h, buffer, edges_so_far, us)))
    (act * (weight j / wsum weight 0 (n_agents h))).
Proof.
  intros Hp Hl Hq Hf Hneigh Hwts Hn Hi Hj HX Hbeta Hc Ex Eact Hact weight.
  assert (HW : forall k, (k < n_agents h)%nat -> homophily_weight (a:=EA) lm ops st (agents h) i k = Ok (Fin (weight k))).
  { intros k Hk. rewrite (homophily_weight_ok (a:=EA) lm ops st (agents h) (n_agents h) i k Hf Hi Hk). unfold affinity, weight.
    destruct (Nat.eqb_spec k i) as [->|Hne]; [reflexivity|]. rewrite Ex.
    destruct (nth_error (agents h) k) as [y|] eqn:Ey. 2:{ apply nth_error_None in Ey. unfold n_agents in Hk. lia. }
    rewrite (HX i x Ex), (HX k y Ey), Hbeta, Hp. f_equal.
    assert (EL : @MDist.lit10 EA 1 10 = Fin (1 / 10 ^ 10)).
    { unfold MDist.lit10. change (match (10 ^ Z.of_N 10)%Z with Zpos q0 => q0 | _ => 1%positive end) with 10000000000%positive. cbn [flit EA]. f_equal. f_equal.
      cbn [pow]. lra. }
    rewrite EL. unfold fmax. cbn [EA fabs fsub flt eabs eadd eopp eltb fopp]. set (T := 1 / 10 ^ 10) in *.
    assert (HT : 0 < T) by (unfold T; apply Rdiv_lt_0_compat; [lra|apply pow_lt; lra]). clearbody T.
    replace (X i + - X k) with (X i - X k) by ring. set (d := Rabs (X i - X k)).
    match goal with |- epow ?b _ = _ => assert (EM : b = Fin (Rmax T d)) end.
    { unfold Rltb. destruct (Rlt_dec T d); f_equal; [rewrite Rmax_right; lra|rewrite Rmax_left; lra]. }
    rewrite EM. assert (HM : 0 < Rmax T d) by (pose proof (Rmax_l T d); lra). set (M := Rmax T d) in *. clearbody M.
    destruct (Req_dec beta 0) as [-> |Nb].
    - unfold epow. destruct (Req_EM_T (- 0) 0); [|lra]. f_equal. unfold Rpower. replace (- 0 * ln M) with 0 by ring. now rewrite exp_0.
    - apply pow_fin; lra. }
  assert (Hnn : forall k, (k < n_agents h)%nat -> 0 <= weight k).
  { intros k _. unfold weight. destruct (k =? i)%nat; [lra|]. left. apply exp_pos. }
  assert (Hps : forall k, k <> i -> 0 < weight k).
  { intros k Hk. unfold weight. destruct (Nat.eqb_spec k i); [contradiction|]. apply exp_pos. }
  set (P := weight j / wsum weight 0 (n_agents h)).
  assert (Hlaw : expects (2 * n_agents h) (fun us => drawn_is j (reservoir_sampling_A_ExpJ lm tape_rng q 1 (n_agents h) (homophily_weight (a:=EA) lm ops st (agents h) i) buffer us)) P).
  { apply sexpects_expects. destruct (Nat.eq_dec i 0) as [->|Ni].
    - apply (law_zero lm q weight); auto.
    - apply (law_pos lm q weight); auto. }
  assert (Hm : exists mt, m_of (a:=EA) st i = Ok mt /\ Z.to_nat (to_size_t mt) = 1%nat).
  { unfold contact_count in Hc. unfold m_of. rewrite bot_guard. destruct Hf as (F1 & F2 & F3 & F4 & F5).
    destruct (Nat.ltb_spec i (n_bots st)) as [Hb|Hb].
    - exists (nth i (bot_m st) 0%Z). split; [apply vget_lt; lia|]. specialize (F5 i Hb). rewrite to_size_t_small; [exact Hc|lia].
    - exists (m st). split; auto. rewrite to_size_t_small; [exact Hc|lia]. }
  destruct Hm as (mt & Em & Emt).
  exists (fun u => if Rlt_dec u act then P else 0), nil. split.
  - intros u Hu _.
    assert (ES : forall us, contact_step (a:=EA) lm tape_rng q ops st i (h, buffer, edges_so_far, u :: us) =
      if Rlt_dec u act then
        '(ca, s) <- reservoir_sampling_A_ExpJ lm tape_rng q 1 (n_agents h) (homophily_weight (a:=EA) lm ops st (agents h) i) buffer us ;;
        network <- set_neighbours_const h i ca (f1 EA) ;;
        Ok (network, ca, fold_left (fun b idx_outgoing => set_insert b (i, idx_outgoing)) ca edges_so_far, s)
      else network <- set_neighbours_const h i [] (f0 EA) ;; Ok (network, buffer, edges_so_far, us)).
    { intros us. unfold contact_step. rewrite tape_draw. unfold vget. rewrite Ex. cbn [bind].
      replace (flt EA (Fin u) (get_activity ops x)) with (if Rlt_dec u act then true else false) by (rewrite Eact; reflexivity).
      destruct (Rlt_dec u act); [|reflexivity]. rewrite Em. cbn [bind]. rewrite Emt. reflexivity. }
    destruct (Rlt_dec u act) as [La|La].
    + apply (expects_ext _ _ _ _) with (2 := Hlaw). intros us HL HU. rewrite ES.
      destruct (reservoir_sampling_A_ExpJ lm tape_rng q 1 (n_agents h) _ buffer us) as [[ca s]| | |]; try reflexivity.
      cbn [bind drawn_is]. unfold set_neighbours_const. rewrite vset_ok by (rewrite Hneigh; exact Hi). cbn [bind].
      rewrite vset_ok by (rewrite Hwts; exact Hi). cbn [bind row_is]. unfold get_neighbours, vget. cbn [neigh].
      rewrite nth_error_upd_eq by (rewrite Hneigh; exact Hi). reflexivity.
    + apply (expects_ext _ _ (fun _ => 0)); [|apply expects_const]. intros us HL HU. rewrite ES.
      unfold set_neighbours_const. rewrite vset_ok by (rewrite Hneigh; exact Hi). cbn [bind].
      rewrite vset_ok by (rewrite Hwts; exact Hi). cbn [bind row_is]. unfold get_neighbours, vget. cbn [neigh].
      rewrite nth_error_upd_eq by (rewrite Hneigh; exact Hi). reflexivity.
  - destruct (Rlt_dec 0 act) as [Ha0|Ha0]; [destruct (Rlt_dec act 1) as [Ha1|Ha1]|].
    + apply (int_step _ act P 0); auto; [ring| |]; intros u Hu; destruct (Rlt_dec u act); auto; lra.
    + replace act with 1 in * by lra. rewrite Rmult_1_l. apply (is_RInt_ext (fun _ => P)); [|apply is_RInt_const01].
      intros u Hu. rewrite Rmin_left, Rmax_right in Hu by lra. destruct (Rlt_dec u 1); [reflexivity|lra].
    + replace act with 0 in * by lra. rewrite Rmult_0_l. apply (is_RInt_ext (fun _ => 0)); [|apply is_RInt_const01].
      intros u Hu. rewrite Rmin_left, Rmax_right in Hu by lra. destruct (Rlt_dec u 0); [lra|reflexivity].
Qed.

(** Three agents with opinions 0, 1, 3; agent 0 with activity 1/2 and homophily 1 contacts agent 1 with
    probability 1/2 * 1 / (1 + 1/3) = 3/8. *)
Definition c62_net : network (activity_agent ext) ext :=
  mkNet (map (fun o => mkActivity (Fin o) (Fin (1 / 2)) (Fin 1)) (0 :: 1 :: 3 :: nil)) (repeat nil 3) (repeat nil 3) Incoming.
Definition c62_settings : ad_settings ext :=
  mkADS None (Fin 0) 1 (Fin 0) (Fin 0) (Fin 0) (Fin 1) (Fin 0) (Fin 0) false false 0 nil nil nil nil false (Fin 1) (Fin 0) (Fin 0) (Fin 0).
Example C62_instance :
  expects 7 (fun us => row_is 0 1 (contact_step (a:=EA) ext_libm tape_rng (list_pq EA) (activity_ops ext) c62_settings 0 (c62_net, [], [], us))) (3 / 8).
Proof.
  set (X := fun k => match k with O => 0 | 1%nat => 1 | _ => 3 end).
  pose proof (C62_single_contact_law ext_libm (list_pq EA) (activity_agent ext) (activity_ops ext) c62_settings c62_net X 1 (1/2)
    (mkActivity (Fin 0) (Fin (1/2)) (Fin 1)) 0 1 [] [] eq_refl eq_refl (list_pq_bag EA)) as H.
  change (n_agents c62_net) with 3%nat in H. cbv zeta in H.
  match type of H with _ -> _ -> _ -> _ -> _ -> _ -> _ -> _ -> _ -> _ -> _ -> _ -> expects _ _ ?v => replace (3 / 8) with v end.
  - apply H; auto; try lra.
    + unfold settings_fit. cbn [m n_bots bot_m bot_homophily c62_settings length]. split; [lia|]. split; [lia|]. split; [lia|]. split; [lia|]. intros; lia.
    + intros [|[|[|k]]] y Hy; cbn in Hy; try (injection Hy as <-; reflexivity). destruct k; discriminate.
  - cbn [wsum Nat.eqb X]. assert (H1 : forall d, 1 <= d -> Rmax (1 / 10 ^ 10) d = d).
    { intros d Hd. apply Rmax_right. assert (1 / 10 ^ 10 <= 1); [|lra]. apply (Rmult_le_reg_r (10 ^ 10)); [apply pow_lt; lra|].
      unfold Rdiv. rewrite Rmult_assoc, Rinv_l by (apply pow_nonzero; lra). rewrite !Rmult_1_l. cbn [pow]. lra. }
    replace (Rabs (0 - 1)) with 1 by (rewrite Rabs_left; lra). replace (Rabs (0 - 3)) with 3 by (rewrite Rabs_left; lra).
    rewrite !H1 by lra. rewrite rpower_one. replace (Rpower 3 (- (1))) with (/ 3) by (rewrite Rpower_Ropp, Rpower_1; lra). field.
Qed.

Print Assumptions C60_weight_proportional.
Print Assumptions C60_two_leading_zeros_refuted.
Print Assumptions C61_same_law_as_top_k.
Print Assumptions C61_top_k.
Print Assumptions C62_single_contact_law.
