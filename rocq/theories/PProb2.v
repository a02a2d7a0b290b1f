(** Proofs: reservoir sampling with one slot behaves as the jump process on real numbers. *)
From Verif Require Import Base BaseFacts Arith64 MRandom SRandom PRandom RFacts PReservoir SProb PProb.
From Coq Require Import Permutation Reals Lra.
From Coquelicot Require Import Coquelicot.
Local Open Scope R_scope.

Lemma tape_draw u t : r_real tape_rng (f0 EA) (f1 EA) (u :: t) = (Fin u, t).
Proof. cbn. f_equal. f_equal. ring. Qed.

Section One.
Variable m : Libm EA.
Variable q : PQ EA.
Variable w : nat -> R.
Variable weight : nat -> res ext.
Variable n : nat.
Hypothesis Hpow : lpow EA m = epow.
Hypothesis Hlog : llog EA m = elog.
Hypothesis Hq : pq_bag q.
Hypothesis Hwt : forall j, (j < n)%nat -> weight j = Ok (Fin (w j)).
Hypothesis Hnn : forall j, (j < n)%nat -> 0 <= w j.

Lemma single_top h x : pq_items q h = x :: nil -> queue_top q h = Ok x.
Proof using Hq.
  intros E. destruct (top_some q Hq h) as (y & Ey); [rewrite E; discriminate|].
  unfold queue_top. rewrite Ey. destruct Hq as (_ & _ & _ & H4). specialize (H4 h y Ey). rewrite E in H4.
  apply Permutation_length_1_inv in H4. congruence.
Qed.
Lemma single_pop h x : pq_items q h = x :: nil -> pq_items q (pq_pop q h) = [].
Proof using Hq.
  intros E. destruct (top_some q Hq h) as (y & Ey); [rewrite E; discriminate|].
  destruct Hq as (_ & _ & _ & H4). specialize (H4 h y Ey). rewrite E in H4.
  apply Permutation_length_1_inv in H4. congruence.
Qed.
Lemma single_push h x : pq_items q h = [] -> pq_items q (pq_push q x h) = x :: nil.
Proof using Hq.
  intros E. destruct Hq as (_ & H2 & _). specialize (H2 x h). rewrite E in H2. apply Permutation_sym in H2. now apply Permutation_length_1_inv in H2.
Qed.

(** the body of the main loop *)
Definition body (idx : nat) (hxs : pq q * ext * list R) : res (pq q * ext * list R) :=
  let '(h, X, s) := hxs in
  w <- weight idx ;;
  let X := fsub EA X w in
  if fle EA X (f0 EA) then
    top <- queue_top q h ;;
    let t := lpow EA m (snd top) w in
    let (u, s) := r_real tape_rng (f0 EA) (f1 EA) s in
    let uniform_from_t_to_one := fadd EA (fmul EA u (fsub EA (f1 EA) t)) t in
    let r := lpow EA m uniform_from_t_to_one (fdiv EA (f1 EA) w) in
    let h := pq_push q (idx, r) (pq_pop q h) in
    let (u, s) := r_real tape_rng (f0 EA) (f1 EA) s in
    top <- queue_top q h ;;
    Ok (h, fdiv EA (llog EA m u) (llog EA m (snd top)), s)
  else Ok (h, X, s).

Lemma pow_fin u p : 0 < u -> p <> 0 -> epow (Fin u) (Fin p) = Fin (Rpower u p).
Proof.
  intros Hu Hp. unfold epow. destruct (Req_EM_T p 0); [contradiction|]. destruct (Req_EM_T u 0); [lra|].
  unfold Rpow. destruct (Rlt_dec 0 u); [reflexivity|lra].
Qed.

Lemma body_jump idx h c r X u1 u2 us : (idx < n)%nat -> pq_items q h = (c, Fin r) :: nil -> 0 < r < 1 -> 0 < w idx ->
  X - w idx <= 0 -> 0 < u1 < 1 -> 0 < u2 < 1 ->
  let t := Rpower r (w idx) in
  let r' := Rpower (u1 * (1 - t) + t) (1 / w idx) in
  exists h', body idx (h, Fin X, u1 :: u2 :: us) = Ok (h', Fin (ln u2 / ln r'), us) /\ pq_items q h' = (idx, Fin r') :: nil /\ 0 < r' < 1.
Proof using Hpow Hlog Hq Hwt.
  intros Hi Hh Hr Hw HX Hu1 Hu2 t r'. unfold body. rewrite Hwt by auto. cbn [bind].
  change (fle EA (fsub EA (Fin X) (Fin (w idx))) (f0 EA)) with (Rleb (X + - w idx) 0).
  assert (Ht : 0 < t < 1) by now apply Rpower_lt1.
  assert (Hr' : 0 < r' < 1) by (apply Rpower_lt1; [split; nra|apply Rdiv_lt_0_compat; lra]).
  unfold Rleb. destruct (Rle_dec (X + - w idx) 0); [|lra].
  rewrite (single_top _ _ Hh). cbn [bind snd]. rewrite tape_draw. rewrite Hpow, Hlog.
  rewrite (pow_fin r (w idx)) by lra. fold t.
  change (fdiv EA (f1 EA) (Fin (w idx))) with (ediv (Fin 1) (Fin (w idx))). rewrite ediv_fin by lra.
  change (fadd EA (fmul EA (Fin u1) (fsub EA (f1 EA) (Fin t))) (Fin t)) with (Fin (u1 * (1 + - t) + t)).
  rewrite pow_fin; [|nra|apply Rgt_not_eq, Rdiv_lt_0_compat; lra].
  replace (1 + - t) with (1 - t) by ring. fold r'.
  rewrite tape_draw. rewrite (single_top _ (idx, Fin r')) by (apply single_push; eapply single_pop; eauto). cbn [bind snd].
  eexists. split; [|split; [apply single_push; eapply single_pop; eauto|exact Hr']].
  rewrite !elog_fin by lra. assert (ln r' < 0) by (apply ln_neg; lra).
  change (fdiv EA (Fin (ln u2)) (Fin (ln r'))) with (ediv (Fin (ln u2)) (Fin (ln r'))). now rewrite ediv_fin by lra.
Qed.

Lemma loop_jump : forall k idx h c r X us, (idx + k <= n)%nat -> pq_items q h = (c, Fin r) :: nil -> 0 < r < 1 -> 0 < X ->
  (2 * k <= length us)%nat -> unit_list us ->
  exists h' X' us' key, for_from idx k body (h, Fin X, us) = Ok (h', X', us') /\ pq_items q h' = (jump w k idx c r X us, key) :: nil.
Proof using Hpow Hlog Hq Hwt Hnn.
  induction k as [|k IH]; intros idx h c r X us Hi Hh Hr HX HL HU; cbn [for_from jump].
  - eexists _, _, _, _. split; [reflexivity|exact Hh].
  - destruct (Rle_dec (X - w idx) 0) as [Hc|Hc].
    + destruct us as [|u1 [|u2 us]]; [cbn in HL; lia|cbn in HL; lia|]. inversion HU as [|? ? Hu1 HU1]; subst. inversion HU1 as [|? ? Hu2 HU2]; subst.
      assert (Hw : 0 < w idx) by (pose proof (Hnn idx ltac:(lia)); lra).
      destruct (body_jump idx h c r X u1 u2 us ltac:(lia) Hh Hr Hw Hc Hu1 Hu2) as (h' & E & Hh' & Hr'). rewrite E. cbn [bind].
      apply (IH (S idx) h' idx); auto; [lia| |cbn in HL; lia].
      pose proof (ln_neg _ Hr') as L1. pose proof (ln_neg _ Hu2) as L2.
      match goal with |- 0 < ?a / ?b => replace (a / b) with ((- a) / (- b)) by (field; lra) end. apply Rdiv_lt_0_compat; lra.
    + unfold body at 1. rewrite Hwt by lia. cbn [bind].
      change (fle EA (fsub EA (Fin X) (Fin (w idx))) (f0 EA)) with (Rleb (X + - w idx) 0). unfold Rleb. destruct (Rle_dec (X + - w idx) 0); [lra|].
      change (fsub EA (Fin X) (Fin (w idx))) with (Fin (X - w idx)).
      apply (IH (S idx) h c r); auto; [lia|lra|lia].
Qed.

(** filling: one item *)
Definition prefix (s : list R) : res (pq q * list R) :=
  let (u, s) := r_real tape_rng (f0 EA) (f1 EA) s in
  w <- weight 0%nat ;;
  let r := lpow EA m u (fdiv EA (f1 EA) w) in
  Ok (pq_push q (0%nat, r) (pq_empty q), s).

Lemma reservoir_unfold buffer s : (1 <= n)%nat ->
  reservoir_sampling_A_ExpJ m tape_rng q 1 n weight buffer s =
  ('(h, s) <- prefix s ;;
   let (u, s) := r_real tape_rng (f0 EA) (f1 EA) s in
   top <- queue_top q h ;;
   '(h, X, s) <- for_from 1 (n - 1) body (h, fdiv EA (llog EA m u) (llog EA m (snd top)), s) ;;
   let buffer := resize 0%nat buffer (length (pq_items q h)) in
   top <- queue_top q h ;;
   buffer <- vset buffer 0 (fst top) ;;
   Ok (buffer, s)).
Proof using.
  intros Hn. unfold reservoir_sampling_A_ExpJ. cbn [Nat.eqb]. replace (Nat.min n 1) with 1%nat by lia.
  unfold for_n, prefix. cbn [for_from].
  destruct (r_real tape_rng (f0 EA) (f1 EA) s) as [u s1]. destruct (weight 0%nat); cbn [bind]; try reflexivity.
  destruct (r_real tape_rng (f0 EA) (f1 EA) s1) as [u2 s2].
  destruct (queue_top q _); cbn [bind]; try reflexivity.
  match goal with |- bind ?A _ = bind ?B _ => change B with A; destruct A as [[[h X] s3]| | |] end; cbn [bind]; try reflexivity.
  destruct (queue_top q h); cbn [bind]; try reflexivity.
  destruct (vset _ _ _); reflexivity.
Qed.

Lemma finish h c key buffer (s : list R) : pq_items q h = (c, key) :: nil ->
  (let buffer := resize 0%nat buffer (length (pq_items q h)) in
   top <- queue_top q h ;; buffer <- vset buffer 0 (fst top) ;; Ok (buffer, s)) = Ok (c :: nil, s).
Proof using Hq.
  intros E. cbv zeta. rewrite (single_top _ _ E), E. cbn [bind length fst].
  pose proof (resize_length nat 0%nat buffer 1) as HL. destruct (resize 0%nat buffer 1) as [|x [|y l]]; cbn in HL; try lia. reflexivity.
Qed.

(** the outcome, first weight positive *)
Lemma outcome_pos buffer u0 u1 us : (1 <= n)%nat -> 0 < w 0%nat -> 0 < u0 < 1 -> 0 < u1 < 1 -> unit_list us -> (2 * (n - 1) <= length us)%nat ->
  let r := Rpower u0 (1 / w 0%nat) in
  exists s', reservoir_sampling_A_ExpJ m tape_rng q 1 n weight buffer (u0 :: u1 :: us) = Ok (jump w (n - 1) 1 0 r (ln u1 / ln r) us :: nil, s').
Proof using Hpow Hlog Hq Hwt Hnn.
  intros Hn Hw Hu0 Hu1 HU HL r.
  assert (Hr : 0 < r < 1) by (apply Rpower_lt1; auto; apply Rdiv_lt_0_compat; lra).
  rewrite reservoir_unfold by auto. unfold prefix. rewrite tape_draw, Hwt by lia. cbn [bind]. rewrite tape_draw, Hpow, Hlog.
  change (fdiv EA (f1 EA) (Fin (w 0%nat))) with (ediv (Fin 1) (Fin (w 0%nat))). rewrite ediv_fin by lra.
  rewrite pow_fin; [|lra|apply Rgt_not_eq, Rdiv_lt_0_compat; lra]. fold r.
  match goal with |- context [queue_top q ?h] => assert (E0 : pq_items q h = (0%nat, Fin r) :: nil) by (apply single_push; exact (proj1 Hq)) end.
  rewrite (single_top _ _ E0). cbn [bind snd]. rewrite !elog_fin by lra. pose proof (ln_neg _ Hr). pose proof (ln_neg _ Hu1).
  change (fdiv EA (Fin (ln u1)) (Fin (ln r))) with (ediv (Fin (ln u1)) (Fin (ln r))). rewrite ediv_fin by lra.
  destruct (loop_jump (n - 1) 1 _ 0%nat r (ln u1 / ln r) us ltac:(lia) E0 Hr) as (h' & X' & us' & key & E & Hh'); auto.
  { replace (ln u1 / ln r) with ((- ln u1) / (- ln r)) by (field; lra). apply Rdiv_lt_0_compat; lra. }
  match type of E with _ = ?rhs => match goal with |- context [for_from ?i ?k ?b ?st] =>
    replace (for_from i k b st) with rhs by (symmetry; exact E) end end.
  cbn [bind]. exists us'. exact (finish _ _ _ buffer us' Hh').
Qed.

(** ... first weight zero, second positive *)
Lemma outcome_zero buffer u0 u1 u2 u3 us : (2 <= n)%nat -> w 0%nat = 0 -> 0 < w 1%nat -> 0 < u0 < 1 -> 0 < u1 < 1 -> 0 < u2 < 1 -> 0 < u3 < 1 ->
  unit_list us -> (2 * (n - 2) <= length us)%nat ->
  let r := Rpower u2 (1 / w 1%nat) in
  exists s', reservoir_sampling_A_ExpJ m tape_rng q 1 n weight buffer (u0 :: u1 :: u2 :: u3 :: us) = Ok (jump w (n - 2) 2 1 r (ln u3 / ln r) us :: nil, s').
Proof using Hpow Hlog Hq Hwt Hnn.
  intros Hn Hw0 Hw Hu0 Hu1 Hu2 Hu3 HU HL r.
  assert (Hr : 0 < r < 1) by (apply Rpower_lt1; auto; apply Rdiv_lt_0_compat; lra).
  rewrite reservoir_unfold by lia. unfold prefix. rewrite tape_draw, Hwt by lia. cbn [bind]. rewrite tape_draw, Hpow, Hlog.
  assert (EP : epow (Fin u0) (ediv (Fin 1) (Fin 0)) = Fin 0).
  { assert (ED : ediv (Fin 1) (Fin 0) = PInf).
    { unfold ediv. destruct (Req_EM_T 0 0); [|lra]. unfold sinf. destruct (Rlt_dec 0 1); [reflexivity|lra]. }
    rewrite ED. unfold epow. rewrite (Rabs_pos_eq u0) by lra. destruct (Req_EM_T u0 1); [lra|]. destruct (Rlt_dec u0 1); [|lra]. reflexivity. }
  rewrite Hw0. change (fdiv EA (f1 EA) (Fin 0)) with (ediv (Fin 1) (Fin 0)). rewrite EP.
  match goal with |- context [queue_top q ?h] => assert (E0 : pq_items q h = (0%nat, Fin 0) :: nil) by (apply single_push; exact (proj1 Hq)) end.
  rewrite (single_top _ _ E0). cbn [bind snd].
  assert (EX : fdiv EA (elog (Fin u1)) (elog (Fin 0)) = Fin 0).
  { cbn. destruct (Rlt_dec 0 u1); [|lra]. destruct (Rlt_dec 0 0); [lra|]. destruct (Req_EM_T 0 0); [|lra]. reflexivity. }
  rewrite EX. replace (n - 1)%nat with (S (n - 2)) by lia. cbn [for_from].
  unfold body at 1. rewrite Hwt by lia. cbn [bind].
  change (fle EA (fsub EA (Fin 0) (Fin (w 1%nat))) (f0 EA)) with (Rleb (0 + - w 1%nat) 0). unfold Rleb. destruct (Rle_dec (0 + - w 1%nat) 0); [|lra].
  rewrite (single_top _ _ E0). cbn [bind snd]. rewrite tape_draw, Hpow, Hlog.
  assert (ET : epow (Fin 0) (Fin (w 1%nat)) = Fin 0).
  { cbn. destruct (Req_EM_T (w 1%nat) 0); [lra|]. destruct (Req_EM_T 0 0); [|lra]. destruct (Rlt_dec 0 (w 1%nat)); [reflexivity|lra]. }
  rewrite ET. change (fadd EA (fmul EA (Fin u2) (fsub EA (f1 EA) (Fin 0))) (Fin 0)) with (Fin (u2 * (1 + - 0) + 0)).
  replace (u2 * (1 + - 0) + 0) with u2 by ring.
  change (fdiv EA (f1 EA) (Fin (w 1%nat))) with (ediv (Fin 1) (Fin (w 1%nat))). rewrite ediv_fin by lra.
  rewrite pow_fin; [|lra|apply Rgt_not_eq, Rdiv_lt_0_compat; lra]. fold r.
  rewrite tape_draw.
  match goal with |- context [queue_top q ?h] => assert (E1 : pq_items q h = (1%nat, Fin r) :: nil) by (apply single_push; eapply single_pop; exact E0) end.
  rewrite (single_top _ _ E1). cbn [bind snd]. rewrite !elog_fin by lra. pose proof (ln_neg _ Hr). pose proof (ln_neg _ Hu3).
  change (fdiv EA (Fin (ln u3)) (Fin (ln r))) with (ediv (Fin (ln u3)) (Fin (ln r))). rewrite ediv_fin by lra.
  destruct (loop_jump (n - 2) 2 _ 1%nat r (ln u3 / ln r) us ltac:(lia) E1 Hr) as (h' & X' & us' & key & E & Hh'); auto.
  { replace (ln u3 / ln r) with ((- ln u3) / (- ln r)) by (field; lra). apply Rdiv_lt_0_compat; lra. }
  match type of E with _ = ?rhs => match goal with |- context [for_from ?i ?k ?b ?st] =>
    replace (for_from i k b st) with rhs by (symmetry; exact E) end end.
  cbn [bind]. exists us'. exact (finish _ _ _ buffer us' Hh').
Qed.

(** the average over the first key *)
Lemma first_average i k idx : 0 < w idx -> (forall j, (idx <= j < idx + S k)%nat -> 0 <= w j) -> (idx <= i < idx + S k)%nat ->
  is_RInt (fun u => val w i k (S idx) idx (Rpower u (1 / w idx))) 0 1 (w i / wsum w idx (S k)).
Proof using.
  intros Hw HN Hi. set (W' := wsum w (S idx) k). assert (HW' : 0 <= W') by (apply wsum_nonneg; intros; apply HN; lia).
  cbn [wsum]. fold W'. set (p := W' / w idx).
  assert (Hp : 0 <= p) by (apply Rmult_le_pos; [lra|left; apply Rinv_0_lt_compat; lra]).
  set (B := PProb.ind i idx). set (C := later w i k (S idx)).
  assert (EV : w i / (w idx + W') = plus (scal (B - C) (1 / (p + 1))) C).
  { unfold plus, scal; cbn; unfold mult; cbn. replace (1 / (p + 1)) with (w idx / (w idx + W')) by (unfold p; field; split; lra).
    unfold B, C, PProb.ind. destruct (Nat.eqb_spec idx i) as [E|NE].
    - rewrite later_out by lia. rewrite <- E. field. lra.
    - rewrite later_range by lia. fold W'. destruct (Req_dec W' 0) as [E0|N0].
      + assert (w i = 0). { pose proof (wsum_ge w i k (S idx) ltac:(intros; apply HN; lia) ltac:(lia)). fold W' in H. pose proof (HN i ltac:(lia)). lra. }
        rewrite H. unfold Rdiv. ring.
      + field. split; lra. }
  rewrite EV. apply (is_RInt_ext (fun u => plus (scal (B - C) (Rpower u p)) C)).
  - intros x Hx. unfold val. fold W'. rewrite Rpower_mult. replace (1 / w idx * W') with p by (unfold p; field; lra).
    fold B C. unfold plus, scal. cbn. unfold mult. cbn. ring.
  - apply (is_RInt_plus (V:=R_NormedModule)); [|apply is_RInt_const01]. apply (is_RInt_scal (V:=R_NormedModule)). now apply int_power.
Qed.

Lemma law_pos i buffer : (i < n)%nat -> 0 < w 0%nat ->
  sexpects (2 * n) (fun us => drawn_is i (reservoir_sampling_A_ExpJ m tape_rng q 1 n weight buffer us)) (w i / wsum w 0 n).
Proof using Hpow Hlog Hq Hwt Hnn.
  intros Hi Hw. replace (2 * n)%nat with (S (S (2 * (n - 1)))) by lia.
  exists (fun u => val w i (n - 1) 1 0 (Rpower u (1 / w 0%nat))). split.
  - intros u Hu. set (r := Rpower u (1 / w 0%nat)). assert (Hr : 0 < r < 1) by (apply Rpower_lt1; auto; apply Rdiv_lt_0_compat; lra).
    pose proof (jump_law w i (n - 1) 1 0 r 0 Hr ltac:(intros; apply Hnn; lia)) as J. rewrite Nat.add_0_r in J.
    apply (sexpects_ext _ _ _ _) with (2 := J). intros [|u1 us] HL HU; [discriminate|]. inversion HU; subst.
    destruct (outcome_pos buffer u u1 us ltac:(lia) Hw Hu) as (s' & E); auto; [cbn in HL; lia|]. rewrite E. reflexivity.
  - assert (EW : wsum w 0 n = wsum w 0 (S (n - 1))) by (f_equal; lia). rewrite EW.
    apply first_average; auto; [|lia]. intros; apply Hnn; lia.
Qed.

Lemma law_zero i buffer : (i < n)%nat -> (1 < n)%nat -> w 0%nat = 0 -> 0 < w 1%nat ->
  sexpects (2 * n) (fun us => drawn_is i (reservoir_sampling_A_ExpJ m tape_rng q 1 n weight buffer us)) (w i / wsum w 0 n).
Proof using Hpow Hlog Hq Hwt Hnn.
  intros Hi Hn Hw0 Hw. replace (2 * n)%nat with (S (S (S (S (2 * (n - 2)))))) by lia.
  assert (EW : wsum w 0 n = wsum w 1 (S (n - 2))) by (replace n with (S (S (n - 2))) at 1 by lia; cbn [wsum]; rewrite Hw0; ring).
  set (v := w i / wsum w 0 n). exists (fun _ => v). split; [|apply is_RInt_const01]. intros u0 Hu0.
  exists (fun _ => v). split; [|apply is_RInt_const01]. intros u1 Hu1.
  destruct (Nat.eq_dec i 0) as [->|Hi0].
  - (* never item 0 *)
    unfold v. rewrite Hw0. replace (0 / wsum w 0 n) with 0 by (unfold Rdiv; ring).
    assert (NJ : forall k idx c r X us, c <> 0%nat -> (0 < idx)%nat -> jump w k idx c r X us <> 0%nat).
    { induction k as [|k IH]; intros idx c r X us Hc Hd; cbn [jump]; auto. destruct (Rle_dec (X - w idx) 0); [|apply IH; auto; lia].
      destruct us as [|? [|? us]]; auto. apply IH; lia. }
    apply (sexpects_ext _ _ (fun _ => 0)); [|apply sexpects_const]. intros [|u2 [|u3 us]] HL HU; try discriminate.
    inversion HU as [|? ? H2 HU2]; subst. inversion HU2 as [|? ? H3 HU3]; subst.
    destruct (outcome_zero buffer u0 u1 u2 u3 us ltac:(lia) Hw0 Hw Hu0 Hu1 H2 H3 HU3) as (s' & E); [cbn in HL; lia|]. rewrite E. unfold drawn_is.
    destruct (Nat.eqb_spec (jump w (n - 2) 2 1 (Rpower u2 (1 / w 1%nat)) (ln u3 / ln (Rpower u2 (1 / w 1%nat))) us) 0) as [E1|]; auto.
    exfalso. revert E1. apply NJ; lia.
  - exists (fun u => val w i (n - 2) 2 1 (Rpower u (1 / w 1%nat))). split.
    + intros u Hu. set (r := Rpower u (1 / w 1%nat)). assert (Hr : 0 < r < 1) by (apply Rpower_lt1; auto; apply Rdiv_lt_0_compat; lra).
      pose proof (jump_law w i (n - 2) 2 1 r 0 Hr ltac:(intros; apply Hnn; lia)) as J. rewrite Nat.add_0_r in J.
      apply (sexpects_ext _ _ _ _) with (2 := J). intros [|u3 us] HL HU; [discriminate|]. inversion HU; subst.
      destruct (outcome_zero buffer u0 u1 u u3 us ltac:(lia) Hw0 Hw Hu0 Hu1 Hu) as (s' & E); auto; [cbn in HL; lia|]. rewrite E. reflexivity.
    + unfold v. rewrite EW. apply first_average; auto; [|lia]. intros; apply Hnn; lia.
Qed.
End One.
