(** Property theorems C12-C14: sampling without replacement. *)
From Verif Require Import Base BaseFacts Arith64 MRandom SRandom PRandom RFacts PReservoir WRandom.
From Coq Require Import Permutation Sorting.Sorted Reals Lra.

(** Number of indices below [n] that [ignore_idx] leaves. *)
Definition population_size (ignore_idx : option nat) (n : nat) : nat :=
  match ignore_idx with Some x => if x <? n then n - 1 else n | None => n end.

(** C12: enough indices: exactly [k], increasing (hence distinct), below [n], not the ignored one,
    independently of the old buffer. *)
Theorem C12_draw_unique (a : Arith) (g : Rng a) ignore_idx k n buffer s :
  sample_ok g -> k <= population_size ignore_idx n ->
  exists out s', draw_unique_k_from_n g ignore_idx k n buffer s = Ok (out, s') /\
    length out = k /\ StronglySorted lt out /\ NoDup out /\
    (forall i, In i out -> i < n /\ ignore_idx <> Some i).
Proof.
  intros Hg Hk. destruct (draw_enough g Hg ignore_idx k n buffer s) as (out & s' & E & H1 & H2 & H3).
  { rewrite length_admissible. exact Hk. }
  exists out, s'. repeat (split; auto).
  - clear -H2. induction H2 as [|x l H IH Hx]; constructor; auto. intros Hin.
    rewrite Forall_forall in Hx. specialize (Hx x Hin). lia.
  - rewrite Forall_forall in H3. now apply H3.
  - rewrite Forall_forall in H3. now apply H3.
Qed.

(** ... with [k] at or above the population: all admissible indices, then leftovers of the old buffer
    (zeros if it was shorter). *)
Theorem C12_draw_surplus (a : Arith) (g : Rng a) ignore_idx k n buffer s :
  sample_ok g -> population_size ignore_idx n <= k ->
  exists out s', draw_unique_k_from_n g ignore_idx k n buffer s = Ok (out, s') /\
    length out = k /\
    (forall p, p < population_size ignore_idx n ->
       nth p out 0 = match ignore_idx with Some x => if p <? x then p else S p | None => p end) /\
    (forall p, population_size ignore_idx n <= p < k -> nth p out 0 = nth p buffer 0).
Proof.
  intros Hg Hk. destruct (draw_surplus g Hg ignore_idx k n buffer s) as (s' & E).
  { rewrite length_admissible. exact Hk. }
  rewrite E. do 2 eexists. split; [reflexivity|].
  assert (HL : length (admissible ignore_idx n) = population_size ignore_idx n) by apply length_admissible.
  assert (HR : length (resize 0 buffer k) = k) by apply resize_length.
  split; [|split].
  - rewrite app_length, skipn_length, HR, HL. lia.
  - intros p Hp. rewrite app_nth1 by lia. clear E HR Hk.
    unfold admissible in *. revert p Hp HL. destruct ignore_idx as [x|].
    + intros p Hp HL. rewrite <- HL in Hp. clear HL.
      assert (G : forall m i q, q < length (filter (is_not (Some x)) (seq i m)) ->
                 nth q (filter (is_not (Some x)) (seq i m)) 0 =
                 if (x <? i) then i + q else if i + q <? x then i + q else S (i + q)).
      { induction m as [|m IH]; intros i q Hq; [cbn in Hq; lia|]. cbn [seq filter is_not] in *.
        destruct (Nat.eqb_spec i x) as [->|Hne]; cbn [negb] in *.
        - rewrite IH by lia. destruct (Nat.ltb_spec x (S x)); [|lia].
          destruct (Nat.ltb_spec x x); [lia|]. destruct (Nat.ltb_spec (x + q) x); lia.
        - destruct q as [|q]; cbn [nth length] in *.
          + destruct (Nat.ltb_spec x i); [lia|]. destruct (Nat.ltb_spec (i + 0) x); lia.
          + rewrite IH by lia. destruct (Nat.ltb_spec x (S i)), (Nat.ltb_spec x i); try lia;
            destruct (Nat.ltb_spec (S i + q) x), (Nat.ltb_spec (i + S q) x); lia. }
      rewrite G by auto. cbn [Nat.ltb Nat.leb Nat.add]. destruct (p <? x); reflexivity.
    + intros p Hp _. cbn in Hp. replace (filter (is_not None) (seq 0 n)) with (seq 0 n).
      * rewrite seq_nth; auto.
      * clear. generalize 0. induction n as [|m IH]; intros i; cbn; auto. now rewrite <- IH.
  - intros p [Hp1 Hp2]. rewrite app_nth2 by lia. rewrite HL.
    set (c := population_size ignore_idx n) in *.
    replace (nth (p - c) (skipn c (resize 0 buffer k)) 0) with (nth p (resize 0 buffer k) 0).
    + unfold resize. destruct (Nat.lt_ge_cases p (length buffer)) as [Hb|Hb].
      * rewrite app_nth1 by (rewrite firstn_length; lia).
        rewrite <- (firstn_skipn k buffer) at 2. rewrite app_nth1; auto. rewrite firstn_length. lia.
      * rewrite (nth_overflow buffer) by lia. rewrite app_nth2 by (rewrite firstn_length; lia).
        rewrite nth_repeat. reflexivity.
    + rewrite <- (firstn_skipn c (resize 0 buffer k)) at 1. rewrite app_nth2; rewrite firstn_length, HR; [|lia].
      f_equal. lia.
Qed.

(** C12. The draw is std::sample of the eligible indices 0..n-1 without the ignored one, in that order:
    every eligible index is offered to it, exactly once. *)
Theorem C12_is_the_sample (a : Arith) (g : Rng a) ignore_idx k n buffer s :
  sample_ok g -> k <= population_size ignore_idx n ->
  let eligible := filter (fun i => match ignore_idx with Some x => negb (i =? x) | None => true end) (seq 0 n) in
  length eligible = population_size ignore_idx n /\
  draw_unique_k_from_n g ignore_idx k n buffer s =
    Ok (map (fun p => nth p eligible 0) (fst (r_sample g (population_size ignore_idx n) k s)),
        snd (r_sample g (population_size ignore_idx n) k s)).
Proof.
  intros Hg Hk el. change el with (admissible ignore_idx n).
  assert (HL : length (admissible ignore_idx n) = population_size ignore_idx n) by exact (length_admissible ignore_idx n).
  split; [exact HL|].
  unfold draw_unique_k_from_n. rewrite population_eq. cbn [bind]. rewrite HL.
  pose proof (Hg (population_size ignore_idx n) k s) as H.
  destruct (r_sample g (population_size ignore_idx n) k s) as [ps s']. cbn in H. destruct H as (H1 & H2 & H3).
  rewrite collect_eq by (rewrite HL; exact H3). cbn [bind]. unfold write_front.
  rewrite map_length, resize_length. rewrite (proj2 (Nat.leb_le _ _)) by lia. cbn [bind fst snd].
  rewrite skipn_all2 by (rewrite resize_length; lia). now rewrite app_nil_r.
Qed.

Example C12_instance :
  draw_unique_k_from_n (const_rng (a:=RA) 0%R 0%R) (Some 1) 2 4 [7;7;7] tt = Ok ([0;2], tt) /\
  sample_ok (const_rng (a:=RA) 0%R 0%R) /\ 2 <= population_size (Some 1) 4.
Proof. split; [reflexivity|]. split; [apply const_rng_sample_ok|cbn; lia]. Qed.
Example C12_surplus_instance :
  draw_unique_k_from_n (const_rng (a:=RA) 0%R 0%R) (Some 1) 4 3 [7;8;9;5;4] tt = Ok ([0;2;9;5], tt).
Proof. reflexivity. Qed.

(** C13 *)
Theorem C13_k_distinct (a : Arith) (m : Libm a) (g : Rng a) (q : PQ a) weight k n buffer s :
  pq_bag q -> (forall i, i < n -> exists w, weight i = Ok w) -> 1 <= k <= n ->
  exists out s', reservoir_sampling_A_ExpJ m g q k n weight buffer s = Ok (out, s') /\
    length out = k /\ NoDup out /\ (forall i, In i out -> i < n).
Proof.
  intros Hq Hw Hk.
  assert (H : okp (reservoir_sampling_A_ExpJ m g q k n weight buffer s)
      (fun r => length (fst r) = k /\ NoDup (fst r) /\ Forall (fun i => i < n) (fst r))).
  { apply reservoir_ok; auto. intros i Hi. apply is_ok_ex. now apply Hw. }
  apply okp_ex in H as ([out s'] & E & H1 & H2 & H3). exists out, s'. rewrite E.
  rewrite Forall_forall in H3. auto.
Qed.

Theorem C13_too_many_is_ub (a : Arith) (m : Libm a) (g : Rng a) (q : PQ a) weight k n buffer s :
  pq_bag q -> (forall i, i < n -> exists w, weight i = Ok w) -> n < k ->
  reservoir_sampling_A_ExpJ m g q k n weight buffer s = UB UbEmptyQueue.
Proof. intros Hq Hw Hk. apply reservoir_ub; auto. intros i Hi. apply is_ok_ex. now apply Hw. Qed.

Theorem C13_zero_keeps_buffer (a : Arith) (m : Libm a) (g : Rng a) (q : PQ a) weight n buffer s :
  reservoir_sampling_A_ExpJ m g q 0 n weight buffer s = Ok (buffer, s).
Proof. reflexivity. Qed.

(** Libm whose pow and log are the extended-real ones. *)
Definition ext_libm : Libm EA :=
  mkLibm EA epow elog (fun x => x) (fun x => x) (fun x => x) (fun x => x) (fun x => x).

Example C13_instance : pq_bag (list_pq EA) /\
  exists out s', reservoir_sampling_A_ExpJ ext_libm (const_rng (a:=EA) NaN NaN) (list_pq EA) 2 5
    (fun _ => Ok NaN) [] tt = Ok (out, s') /\ length out = 2 /\ NoDup out /\ (forall i, In i out -> i < 5).
Proof.
  split; [apply list_pq_bag|]. apply C13_k_distinct; [apply list_pq_bag| |lia]. eauto.
Qed.

(** C14 *)
Theorem C14_zero_weight_never_sampled (m : Libm EA) (g : Rng EA) (q : PQ EA) (w : nat -> R) k n z buffer s :
  lpow EA m = epow -> llog EA m = elog ->
  (forall s, exists u, fst (r_real g (Fin 0) (Fin 1) s) = Fin u /\ (0 < u < 1)%R) ->
  pq_bag q -> pq_ordered (a:=EA) (fun x : ext => exists r, x = Fin r) q ->
  w z = 0%R -> (forall i, i < n -> i <> z -> (0 < w i)%R) -> 1 <= k < n ->
  exists out s', reservoir_sampling_A_ExpJ m g q k n (fun i => Ok (Fin (w i))) buffer s = Ok (out, s') /\
    ~ In z out.
Proof.
  intros H1 H2 H3 H4 H5 H6 H7 H8.
  pose proof (reservoir_no_zero m H1 H2 g H3 q H4 H5 n k z w H6 H7 H8 buffer s) as H.
  apply okp_ex in H as ([out s'] & E & H). exists out, s'. split; auto.
Qed.

Example C14_instance :
  let m := ext_libm in let g := const_rng (a:=EA) (Fin (1/2)) (Fin 0) in
  let w := fun i => if i =? 1 then 0%R else 1%R in
  lpow EA m = epow /\ llog EA m = elog /\
  (forall s, exists u, fst (r_real g (Fin 0) (Fin 1) s) = Fin u /\ (0 < u < 1)%R) /\
  pq_bag (list_pq EA) /\ pq_ordered (a:=EA) (fun x : ext => exists r, x = Fin r) (list_pq EA) /\
  w 1 = 0%R /\ (forall i, i < 4 -> i <> 1 -> (0 < w i)%R) /\ 1 <= 2 < 4.
Proof.
  cbn zeta. split; [reflexivity|]. split; [reflexivity|].
  split; [intros s; exists (1/2)%R; split; [reflexivity|lra]|].
  split; [apply list_pq_bag|]. split; [apply list_pq_ordered|]. split; [reflexivity|]. split; [|lia].
  - intros i Hi Hne. apply Nat.eqb_neq in Hne. cbn beta. rewrite Hne. lra.
Qed.

Ltac decide_lt := repeat match goal with |- context[Rltb ?x ?y] =>
  (replace (Rltb x y) with true by (symmetry; destruct (Rltb_spec x y); [reflexivity|lra])) ||
  (replace (Rltb x y) with false by (symmetry; destruct (Rltb_spec x y); [lra|reflexivity])) end.
Ltac decide_le := repeat match goal with |- context[Rleb ?x ?y] =>
  (replace (Rleb x y) with true by (symmetry; destruct (Rleb_spec x y); [reflexivity|lra])) ||
  (replace (Rleb x y) with false by (symmetry; destruct (Rleb_spec x y); [lra|reflexivity])) end.

(** With two indices of weight zero the second one can be sampled although enough indices of
    positive weight exist: weights 0,1,0,1 and k = 2 give {3,2}. *)
Theorem C14_two_zero_weights_refuted :
  exists (m : Libm EA) (g : Rng EA) (q : PQ EA) (w : nat -> R) s out s',
    lpow EA m = epow /\ llog EA m = elog /\
    (forall s, exists u, fst (r_real g (Fin 0) (Fin 1) s) = Fin u /\ (0 < u < 1)%R) /\
    pq_bag q /\ pq_ordered (a:=EA) (fun x : ext => exists r, x = Fin r) q /\
    w 0 = 0%R /\ w 2 = 0%R /\ w 1 = 1%R /\ w 3 = 1%R /\
    reservoir_sampling_A_ExpJ m g q 2 4 (fun i => Ok (Fin (w i))) [] s = Ok (out, s') /\
    In 2 out.
Proof.
  exists ext_libm, (const_rng (a:=EA) (Fin (1/2)) (Fin 0)), (list_pq EA),
    (fun i => match i with 1 | 3 => 1%R | _ => 0%R end), tt.
  assert (p1 : forall u, (0 < u < 1)%R -> epow (Fin u) (ediv (Fin 1) (Fin 1)) = Fin u).
  { intros u Hu. rewrite ediv_fin by lra. replace (1/1)%R with 1%R by lra.
    cbn. destruct (Req_EM_T 1 0); [lra|]. destruct (Req_EM_T u 0); [lra|].
    unfold Rpow. destruct (Rlt_dec 0 u); [|lra]. now rewrite Rpower_1. }
  assert (p1' : forall u, (0 < u < 1)%R -> epow (Fin u) (Fin 1) = Fin u).
  { intros u Hu. rewrite <- (p1 u) at 2 by auto. rewrite ediv_fin by lra. now replace (1/1)%R with 1%R by lra. }
  assert (p0 : forall u, (0 < u < 1)%R -> epow (Fin u) (ediv (Fin 1) (Fin 0)) = Fin 0).
  { intros u Hu. cbn [ediv]. destruct (Req_EM_T 0 0); [|lra]. unfold sinf. destruct (Rlt_dec 0 1); [|lra].
    cbn. rewrite Rabs_right by lra. destruct (Req_EM_T u 1); [lra|]. destruct (Rlt_dec u 1); [auto|lra]. }
  assert (pi : epow (Fin 1) (ediv (Fin 1) (Fin 0)) = Fin 1).
  { cbn [ediv]. destruct (Req_EM_T 0 0); [|lra]. unfold sinf. destruct (Rlt_dec 0 1); [|lra].
    cbn. rewrite Rabs_R1. destruct (Req_EM_T 1 1); [auto|lra]. }
  assert (p00 : epow (Fin 0) (Fin 0) = Fin 1).
  { cbn. destruct (Req_EM_T 0 0); [auto|lra]. }
  assert (x0 : ediv (elog (Fin (1/2))) (elog (Fin 0)) = Fin 0).
  { cbn. destruct (Rlt_dec 0 (1/2)); [|lra]. destruct (Rlt_dec 0 0); [lra|].
    destruct (Req_EM_T 0 0); [auto|lra]. }
  assert (x1 : ediv (elog (Fin (1/2))) (elog (Fin (1/2))) = Fin 1).
  { rewrite elog_fin by lra. pose proof (ln_neg (1/2) ltac:(lra)). rewrite ediv_fin by lra.
    f_equal. field. lra. }
  assert (half : (0 < 1/2 < 1)%R) by lra.
  exists [3; 2], tt. split; [reflexivity|]. split; [reflexivity|].
  split; [intros s; exists (1/2)%R; split; [reflexivity|lra]|].
  split; [apply list_pq_bag|]. split; [apply list_pq_ordered|]. do 4 (split; [reflexivity|]).
  split; [|cbn; auto].
  - unfold reservoir_sampling_A_ExpJ. cbn [Nat.eqb].
    unfold for_n. cbn [Nat.min for_from bind list_pq pq_empty pq_push pq_top pq_pop pq_items pq const_rng r_real rst
                       ext_libm lpow llog EA f0 f1 fdiv fadd fmul fsub fle queue_top fst snd Nat.sub].
    rewrite p0, p1 by auto. unfold queue_top.
    cbn [pq_top list_pq select_min flt EA eltb snd fst].
    decide_lt.
    cbn [fst snd bind]. rewrite x0. cbn [eadd eopp eleb].
    decide_le.
    cbn [pq_top list_pq select_min flt EA eltb snd fst bind pq_pop pq_push].
    decide_lt.
    cbn [fst snd bind]. rewrite p00. cbn [eopp eadd emul].
    replace (1 / 2 * (1 + - (1)) + 1)%R with 1%R by lra. rewrite pi.
    decide_lt. cbn [fst snd bind pq_items length resize]. rewrite x1. cbn [eadd eopp eleb]. decide_le.
    rewrite p1' by lra. cbn [eadd eopp emul].
    replace (1 / 2 * (1 + - (1 / 2)) + 1 / 2)%R with (3/4)%R by lra. rewrite p1 by lra.
    cbn [bind length resize firstn app repeat Nat.sub vset upd Nat.ltb Nat.leb fst snd select_min flt EA eltb]. decide_lt.
    reflexivity.
Qed.

Print Assumptions C12_draw_unique.
Print Assumptions C12_is_the_sample.
Print Assumptions C12_draw_surplus.
Print Assumptions C13_k_distinct.
Print Assumptions C13_too_many_is_ub.
Print Assumptions C14_zero_weight_never_sampled.
Print Assumptions C14_two_zero_weights_refuted.
