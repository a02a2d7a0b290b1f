(** Property theorems C84 (Deffuant in double precision almost conserves the mean) and C85 (DeGroot in double
    precision follows the exact run). *)
From Coq Require Import Reals Lra Psatz.
From Flocq Require Import Core.Core IEEE754.BinarySingleNaN.
From Verif Require Import Base BaseFacts Arith64 RFacts MRandom SRandom PRandom WRandom MNetwork SNetwork MAgents MDeGroot SDeGroot PDeGroot
  MDeffuant SDeffuant PDeffuant TDeffuant PFloat SRounding PRounding PRounding2 PRounding3 PRounding4.
Local Open Scope R_scope.

(** ** C84 *)
Definition mean_opinion (g : network (simple_agent double) double) : R := Rsum (values (@opinions FA g)) / INR (n_agents g).

(** IEEE binary64, mu <= 1/2, opinions of size at most M: each iteration changes the mean by at most 2^-52 M. *)
Theorem C84_mean_drift (g : Rng FA) (m : deffuant (simple_agent double)) s k M :
  sample_ok g -> int_ok g -> @can_select FA _ (use_network m) (df_net m) ->
  finite_double (mu m) -> 0 <= value (mu m) <= 1/2 -> Forall (small_finite M) (@opinions FA (df_net m)) -> 0 <= M ->
  exists m' s', simple_run g k m s = Ok (m', s') /\ Forall (small_finite M) (@opinions FA (df_net m')) /\
    Rabs (mean_opinion (df_net m') - mean_opinion (df_net m)) <= INR k * (/ 2 ^ 52 * M).
Proof.
  intros Hs Hi Hc Fm Hm HF M0. destruct (run_ok (a:=FA) g Hs Hi k m s Hc) as (m' & s' & ps & E & (l' & En & EL) & _ & _ & _ & _ & Hp & _ & V & HM).
  exists m', s'. split; [exact E|].
  assert (N : @n_agents (simple_agent double) double (df_net m') = @n_agents (simple_agent double) double (df_net m)) by (rewrite En; exact EL).
  destruct (met_drift (homophily_threshold m) (mu m) ps _ _ M (n_agents (df_net m)) Fm Hm HM) as (F1 & D); [unfold opinions; apply map_length| |exact HF|].
  { eapply Forall_impl; [|exact V]. intros p (V1 & V2 & _). split; assumption. }
  split; [exact F1|]. unfold mean_opinion. rewrite N.
  destruct (Nat.eq_dec (n_agents (df_net m)) 0) as [Z|Hn].
  - assert (O : @opinions FA (df_net m) = []) by (apply length_zero_iff_nil; unfold opinions; rewrite map_length; exact Z).
    assert (O' : @opinions FA (df_net m') = []) by (apply length_zero_iff_nil; unfold opinions; rewrite map_length; exact (eq_trans N Z)).
    rewrite O, O'. cbn [values map]. rewrite Rsum_nil, Rminus_eq_0, Rabs_R0.
        apply Rmult_le_pos; [apply pos_INR|]. apply Rmult_le_pos; [|exact M0]. apply Rlt_le, Rinv_0_lt_compat, pow_lt. lra.
  - assert (Pn : 0 < INR (n_agents (df_net m))) by (apply lt_0_INR; lia). set (n := INR (n_agents (df_net m))) in *.
    match goal with |- Rabs (?p / ?q - ?r / ?q) <= _ => set (P := p) in *; set (Q := r) in *; change q with n end.
    change (Rabs (P - Q) <= INR (length ps) * (2 * (u64 * M))) in D || idtac.
    replace (P / n - Q / n) with ((P - Q) / n) by (field; lra).
    unfold Rdiv. rewrite Rabs_mult, (Rabs_right (/ n)) by (apply Rle_ge, Rlt_le, Rinv_0_lt_compat, Pn).
    apply Rmult_le_reg_r with n; [exact Pn|]. rewrite Rmult_assoc, Rinv_l, Rmult_1_r by lra. eapply Rle_trans; [exact D|].
    rewrite Hp, mult_INR. fold n. unfold u64. replace (2 ^ 53) with (2 * 2 ^ 52) by reflexivity. apply Req_le. set (p := 2 ^ 52). assert (0 < p) by (apply pow_lt; lra). match goal with |- INR k * ?y * _ = _ => change y with n end. field. lra.
Qed.

Definition both_half {S : Type} (r : res (deffuant (simple_agent double) * S)) : bool :=
  match r with
  | Ok (m', _) => match @opinions FA (df_net m') with [x; y] => feq FA x (fdiv FA (f1 FA) (b64_of_Z 2)) && feq FA y (fdiv FA (f1 FA) (b64_of_Z 2)) && is_finite (x : double) && is_finite (y : double) | _ => false end
  | _ => false end.
Lemma both_half_ok {S : Type} (r : res (deffuant (simple_agent double) * S)) : both_half r = true ->
  exists m' s' x y, r = Ok (m', s') /\ @opinions FA (df_net m') = [x; y] /\
    feq FA x (fdiv FA (f1 FA) (b64_of_Z 2)) && feq FA y (fdiv FA (f1 FA) (b64_of_Z 2)) && is_finite (x : double) && is_finite (y : double) = true.
Proof.
  destruct r as [[m' s']| | |]; try discriminate. cbn [both_half]. intros H. exists m', s'. destruct (@opinions FA (df_net m')) as [|x [|y [|]]]; try discriminate. exists x, y. auto.
Qed.
(** "The mean is conserved in double precision" fails: opinions 1 and 2^-60, mu = 1/2. *)
Theorem C84_exactly_conserved_refuted :
  ~ (forall (g : Rng FA) (m m' : deffuant (simple_agent double)) s s', sample_ok g -> int_ok g -> @can_select FA _ (use_network m) (df_net m) ->
       finite_double (mu m) -> 0 <= value (mu m) <= 1/2 -> Forall finite_double (@opinions FA (df_net m)) ->
       simple_iteration g m s = Ok (m', s') -> mean_opinion (df_net m') = mean_opinion (df_net m)).
Proof.
  intros Claim. destruct C32_float_instance as (H1 & H2 & H3 & H4 & H5 & H6).
  assert (B : both_half (simple_iteration (const_rng (a:=FA) tiny tiny) df_half tt) = true) by (vm_compute; reflexivity).
  destruct (both_half_ok _ B) as (m' & s' & x & y & E & Eo & B'). clear B.
  pose proof (Claim (const_rng (a:=FA) tiny tiny) df_half m' tt s' H1 H2 H3 H4 H5 H6 E) as C. clear Claim E H1 H2 H3 H4 H5 H6. unfold mean_opinion in C. rename B' into B.
  assert (Hn : @n_agents (simple_agent double) double (df_net m') = length (@opinions FA (df_net m'))) by (unfold opinions; now rewrite map_length).
  rewrite Hn, Eo in C. clear Hn Eo.
  apply andb_prop in B as (B & Fy). apply andb_prop in B as (B & Fx). apply andb_prop in B as (Bx & By).
  pose proof (Beqb_correct _ _ (x : double) (fdiv FA (f1 FA) (b64_of_Z 2)) Fx ltac:(reflexivity)) as Ex.
  pose proof (Beqb_correct _ _ (y : double) (fdiv FA (f1 FA) (b64_of_Z 2)) Fy ltac:(reflexivity)) as Ey.
  cbn [feq FA] in Bx, By. rewrite Ex in Bx. rewrite Ey in By.
  destruct (Req_bool_spec (value (x : double)) (value (fdiv FA (f1 FA) (b64_of_Z 2) : double))) as [Vx|]; [|discriminate].
  destruct (Req_bool_spec (value (y : double)) (value (fdiv FA (f1 FA) (b64_of_Z 2) : double))) as [Vy|]; [|discriminate].
  rewrite half_value in Vx, Vy.
  change (@opinions FA (df_net df_half)) with [f1 FA; tiny] in C. change (n_agents (df_net df_half)) with 2%nat in C.
  cbn [values map length] in C. rewrite !Rsum_cons, Rsum_nil in C. rewrite Vx, Vy in C.
  destruct (b64_exact 1 ltac:(lia)) as (V1 & _). change (value (f1 FA : double)) with (value (b64_of_Z 1)) in C. rewrite V1 in C.
  assert (Ht : 0 < value (tiny : double)).
  { rewrite <- SF2R_B2SF. replace (B2SF tiny) with (SpecFloat.S754_finite false 4503599627370496 (-112)) by (vm_compute; reflexivity).
    unfold SF2R. apply F2R_gt_0. cbn. lia. }
  cbn [INR] in C. lra.
Qed.

(** ** C85 *)
(** The double-precision run stays finite, and every opinion stays within the given bound of the exact run. *)
Theorem C85_run k (m : degroot FA) d W M : ready m -> rows_bounded (dg_net m) d W -> 1 <= W ->
  Forall (small_finite M) (@opinions FA (dg_net m)) -> 0 <= M -> (gro (S d) * W) ^ k * (M + INR k * (INR d * eta64)) <= big ->
  exists m' me, degroot_run k m = Ok m' /\ degroot_run k (exact_degroot m) = Ok me /\
    Forall (small_finite ((gro (S d) * W) ^ k * (M + INR k * (INR d * eta64)))) (@opinions FA (dg_net m')) /\
    length (@opinions FA (dg_net m')) = n_agents (dg_net m) /\ length (@opinions RA (dg_net me)) = n_agents (dg_net m) /\
    forall i, (i < n_agents (dg_net m))%nat ->
      Rabs (nth i (values (@opinions FA (dg_net m'))) 0 - nth i (@opinions RA (dg_net me)) 0) <= drift_bound d W M k.
Proof.
  intros HR Hr HW HF M0 Hb. destruct (degroot_run_iter k m HR) as (m' & E & _ & O & _ & _ & N).
  destruct (degroot_run_iter k (exact_degroot m) (exact_ready m HR)) as (me & Ee & _ & Oe & _ & _ & Ne).
  assert (Hx : forall i, small_finite M (nth i (@opinions FA (dg_net m)) (f0 FA))).
  { intros i. destruct (Nat.lt_ge_cases i (length (@opinions FA (dg_net m)))) as [Hi|Hi].
    - rewrite Forall_forall in HF. apply HF. apply nth_In. exact Hi.
    - rewrite nth_overflow by exact Hi. split; [reflexivity|]. change (value (f0 FA : double)) with 0. rewrite Rabs_R0. exact M0. }
  destruct (run_err (dg_net m) d W (@opinions FA (dg_net m)) M k (proj1 HR) Hr HW Hx Hb) as (R1 & R2).
  exists m', me. split; [exact E|]. split; [exact Ee|].
  assert (L : length (@opinions FA (dg_net m')) = n_agents (dg_net m)) by (rewrite <- N; unfold opinions; apply map_length).
  assert (Le : length (@opinions RA (dg_net me)) = n_agents (dg_net m)).
  { transitivity (n_agents (dg_net me)); [unfold opinions; apply map_length|]. etransitivity; [exact Ne|]. exact (exact_net_agents (dg_net m)). }
  split; [|split; [exact L|split; [exact Le|]]].
  - apply Forall_forall. intros x Hx'. apply In_nth with (d := f0 FA) in Hx' as (i & Hi & <-). rewrite O. apply R1.
  - intros i Hi. pose proof (R2 i) as P. rewrite <- O in P. change (dg_net (exact_degroot m)) with (exact_net (dg_net m)) in Oe. rewrite exact_opinions in Oe.
    eapply Rle_trans; [|exact P]. apply Req_le. f_equal. f_equal.
    + unfold values. change 0 with ((fun x : double => value x) (f0 FA)). apply (map_nth (fun x : double => value x)).
    + rewrite Oe. reflexivity.
Qed.

Lemma gro_bernoulli n : INR n * u64 <= 1 / 2 -> gro n <= 1 + 2 * (INR n * u64).
Proof.
  intros H. pose proof u64_pos as U. assert (U1 : u64 <= 1 / 2). { pose proof u64_small. assert (/ 2 ^ 10 <= 1 / 2) by (cbn; lra). lra. }
  assert (A : 1 - INR n * u64 <= (1 - u64) ^ n).
  { clear H. induction n as [|n IH]; [cbn; lra|]. rewrite S_INR. cbn [pow]. pose proof (pos_INR n). assert (0 <= INR n * u64 * u64) by (apply Rmult_le_pos; [apply Rmult_le_pos|]; lra).
    assert ((1 - u64) * (1 - INR n * u64) <= (1 - u64) * (1 - u64) ^ n) by (apply Rmult_le_compat_l; lra). lra. }
  assert (B : gro n * (1 - u64) ^ n <= 1).
  { unfold gro. rewrite <- Rpow_mult_distr. apply Rle_trans with (1 ^ n); [|rewrite pow1; lra]. apply pow_incr. split; nra. }
  pose proof (gro_ge1 n) as G. pose proof (pos_INR n). set (t := INR n * u64) in *. assert (T0 : 0 <= t) by (apply Rmult_le_pos; lra).
  assert (C : gro n * (1 - t) <= 1). { eapply Rle_trans; [|exact B]. apply Rmult_le_compat_l; lra. }
  nra.
Qed.

(** Rows of at most d entries, normalised up to W with W^k <= 2, and k (d+1) <= 2^52: the error after k iterations
    is at most 12 k (d+1) 2^-53 M. *)
Theorem C85_normalised k (m : degroot FA) d W M : ready m -> rows_bounded (dg_net m) d W -> 1 <= W -> W ^ k <= 2 ->
  INR k * INR (S d) <= 2 ^ 52 -> Forall (small_finite M) (@opinions FA (dg_net m)) -> / 2 ^ 1000 <= M <= 2 ^ 990 ->
  exists m' me, degroot_run k m = Ok m' /\ degroot_run k (exact_degroot m) = Ok me /\
    Forall finite_double (@opinions FA (dg_net m')) /\
    length (@opinions FA (dg_net m')) = n_agents (dg_net m) /\ length (@opinions RA (dg_net me)) = n_agents (dg_net m) /\
    forall i, (i < n_agents (dg_net m))%nat ->
      Rabs (nth i (values (@opinions FA (dg_net m'))) 0 - nth i (@opinions RA (dg_net me)) 0) <= 12 * INR k * INR (S d) * (/ 2 ^ 53) * M.
Proof.
  intros HR Hr HW HWk Hkd HF HM. pose proof u64_pos as U. pose proof eta64_pos as Et.
  assert (M0 : 0 < M) by (assert (0 < / 2 ^ 1000) by (apply Rinv_0_lt_compat, pow_lt; lra); lra).
  assert (Hku : INR k * INR (S d) * u64 <= 1 / 2).
  { unfold u64. replace (2 ^ 53) with (2 * 2 ^ 52) by reflexivity. set (p := 2 ^ 52) in *. assert (0 < p) by (apply pow_lt; lra). 
    apply Rmult_le_reg_r with (2 * p); [lra|]. rewrite Rmult_assoc, Rinv_l by lra. lra. }
  assert (Hg : gro (S d) ^ k <= 1 + 2 * (INR k * INR (S d) * u64)).
  { unfold gro. rewrite <- pow_mult. rewrite Nat.mul_comm. rewrite <- mult_INR. apply gro_bernoulli. rewrite mult_INR. exact Hku. }
  set (gk := gro (S d) ^ k) in *. assert (Hg1 : 1 <= gk) by (apply pow_R1_Rle, gro_ge1).
  set (t := INR k * INR (S d)) in *. pose proof (pos_INR k) as Ik. pose proof (pos_INR d) as Id. assert (T0 : 0 <= t) by (apply Rmult_le_pos; [exact Ik|apply pos_INR]).
  assert (W1 : 1 <= W ^ k) by (apply pow_R1_Rle; lra).
  assert (Htu : 0 <= t * u64) by (apply Rmult_le_pos; lra).
  assert (EG : (gro (S d) * W) ^ k = gk * W ^ k) by (unfold gk; apply Rpow_mult_distr).
  assert (Q1 : INR k * (INR d * eta64) <= t * eta64) by (unfold t; rewrite <- Rmult_assoc; apply Rmult_le_compat_r; [lra|]; apply Rmult_le_compat_l; [exact Ik|]; rewrite S_INR; lra).
  assert (EU : eta64 <= u64 * M).
  { apply Rle_trans with (u64 * / 2 ^ 1000); [|apply Rmult_le_compat_l; lra]. unfold eta64, u64. rewrite <- Rinv_mult, <- pow_add. apply Rinv_le_contravar; [apply pow_lt; lra|]. apply Rle_pow; [lra|lia]. }
  assert (Q2 : t * eta64 <= t * u64 * M) by (rewrite Rmult_assoc; apply Rmult_le_compat_l; lra).
  assert (Q0 : 0 <= INR k * (INR d * eta64)) by (apply Rmult_le_pos; [exact Ik|apply Rmult_le_pos; lra]).
  set (q := INR k * (INR d * eta64)) in *. set (Wk := W ^ k) in *. 
  assert (Q3 : q <= M / 2) by nra.
  assert (GW : gk * Wk <= 4) by nra.
  destruct (C85_run k m d W M HR Hr HW HF ltac:(lra)) as (m' & me & E & Ee & F1 & L & Le & P).
  { fold q. rewrite EG. fold Wk. apply Rle_trans with (4 * (2 * 2 ^ 990)).
    - apply Rmult_le_compat; try lra. apply Rmult_le_pos; lra.
    - unfold big. replace (2 ^ 1000) with (2 ^ 10 * 2 ^ 990) by (rewrite <- pow_add; reflexivity). assert (0 < 2 ^ 990) by (apply pow_lt; lra). assert (8 <= 2 ^ 10) by (cbn; lra). nra. }
  exists m', me. split; [exact E|]. split; [exact Ee|]. split; [eapply Forall_impl; [|exact F1]; intros x (Fx & _); exact Fx|]. split; [exact L|]. split; [exact Le|].
  intros i Hi. eapply Rle_trans; [apply (P i Hi)|]. unfold drift_bound. rewrite EG. fold q Wk. change (/ 2 ^ 53) with u64.
  replace (12 * INR k * INR (S d) * u64 * M) with (12 * (t * u64) * M) by (unfold t; ring).
  assert (A1 : (gk * Wk - Wk) <= 4 * (t * u64)) by nra.
  assert (A2 : (gk * Wk - Wk) * (M + q) <= 4 * (t * u64) * (2 * M)) by (apply Rmult_le_compat; nra).
  assert (A3 : q * (gk * Wk) <= (t * u64 * M) * 4) by (apply Rmult_le_compat; nra).
  assert (0 <= t * u64 * M) by (apply Rmult_le_pos; lra). lra.
Qed.

(** "A population in agreement keeps its opinion in double precision" fails already when everybody listens to
    everybody with the weight 1/n (rounded to double): for ten agents who agree on 1. *)
Definition all_agree (n : nat) : degroot FA :=
  mkDeGroot (a:=FA) (base_ctor None) (b64_of_Z 0) None
    (mkNet (repeat (mkSimple (f1 FA)) n) (repeat (seq 0 n) n) (repeat (repeat (fdiv FA (f1 FA) (b64_of_Z (Z.of_nat n))) n) n) Incoming) (repeat (mkSimple (f1 FA)) n).
Lemma all_agree_ready n : ready (all_agree n).
Proof.
  unfold all_agree. split; [|unfold n_agents; reflexivity]. unfold wf. cbn [dg_net neigh wts agents]. rewrite !repeat_length. split; [reflexivity|]. split; [reflexivity|]. split.
  - intros i Hi. rewrite (nth_indep _ _ (seq 0 n)) by (rewrite repeat_length; lia). rewrite nth_repeat, seq_length.
    match goal with |- _ = length (nth i (repeat ?w n) []) => rewrite (nth_indep _ _ w) by (rewrite repeat_length; lia); rewrite nth_repeat end. now rewrite repeat_length.
  - intros i j Hj. destruct (Nat.lt_ge_cases i n) as [Hi|Hi].
    + rewrite (nth_indep _ _ (seq 0 n)), nth_repeat in Hj by (rewrite repeat_length; lia). apply in_seq in Hj. lia.
    + rewrite nth_overflow in Hj by (rewrite repeat_length; lia). destruct Hj.
Qed.
Definition first_off (r : res (degroot FA)) : bool :=
  match r with Ok m' => match @opinions FA (dg_net m') with x :: _ => negb (feq FA x (f1 FA)) | _ => false end | _ => false end.
Lemma first_off_ok r : first_off r = true -> exists m' x l, r = Ok m' /\ @opinions FA (dg_net m') = x :: l /\ feq FA x (f1 FA) = false.
Proof.
  destruct r as [m'| | |]; try discriminate. cbn [first_off]. intros H. destruct (@opinions FA (dg_net m')) as [|x l] eqn:Eo; [discriminate|].
  exists m', x, l. split; [reflexivity|]. split; [exact Eo|]. now apply Bool.negb_true_iff.
Qed.
Theorem C85_agreement_kept_refuted :
  ~ (forall n (m' : degroot FA), (1 <= n)%nat -> degroot_iteration (all_agree n) = Ok m' -> Forall (fun x => feq FA x (f1 FA) = true) (@opinions FA (dg_net m'))).
Proof.
  intros Claim.
  assert (B : first_off (degroot_iteration (all_agree 10)) = true) by (vm_compute; reflexivity).
  destruct (first_off_ok _ B) as (m' & x & l & E & Eo & Ex). specialize (Claim 10%nat m' ltac:(lia) E). rewrite Eo in Claim.
  inversion Claim as [|? ? Hx _]; subst. congruence.
Qed.

(** ** Instances *)
Lemma tiny_value : value (tiny : double) = / 2 ^ 60.
Proof.
  rewrite <- SF2R_B2SF. replace (B2SF tiny) with (SpecFloat.S754_finite false 4503599627370496 (-112)) by (vm_compute; reflexivity).
    unfold SF2R, F2R. cbn [Fnum Fexp cond_Zopp]. change (-112)%Z with (- Z.of_nat 112)%Z. rewrite bpow_neg. change 4503599627370496 with (IZR (2 ^ 52)).
    change (IZR (2 ^ 52)) with (bpow radix2 (Z.of_nat 52)). rewrite bpow_pos. replace (2 ^ 112) with (2 ^ 52 * 2 ^ 60) by (rewrite <- pow_add; reflexivity).
    assert (0 < 2 ^ 52) by (apply pow_lt; lra). assert (0 < 2 ^ 60) by (apply pow_lt; lra). field.
Qed.
Example C84_instance k : exists m' s', simple_run (const_rng (a:=FA) tiny tiny) k df_half tt = Ok (m', s') /\
  Rabs (mean_opinion (df_net m') - mean_opinion (df_net df_half)) <= INR k * (/ 2 ^ 52 * 1).
Proof.
  destruct C32_float_instance as (H1 & H2 & H3 & H4 & H5 & _).
  destruct (C84_mean_drift (const_rng (a:=FA) tiny tiny) df_half tt k 1 H1 H2 H3 H4 H5) as (m' & s' & E & _ & D); [|lra|exists m', s'; split; [exact E|exact D]].
  constructor; [split; [reflexivity|]|constructor; [split; [reflexivity|]|constructor]].
  - destruct (b64_exact 1 ltac:(lia)) as (V1 & _). match goal with |- Rabs ?t <= _ => change t with (value (b64_of_Z 1)) end. rewrite V1, Rabs_R1. lra.
  - match goal with |- Rabs ?t <= _ => change t with (value (tiny : double)) end. rewrite tiny_value. assert (0 < 2 ^ 60) by (apply pow_lt; lra). rewrite Rabs_right by (apply Rle_ge, Rlt_le, Rinv_0_lt_compat; lra). rewrite <- Rinv_1. apply Rinv_le_contravar; [lra|]. apply pow_R1_Rle. lra.
Qed.

(** Two agents with opinions 1 and 2^-60, who both listen to both with weight 1/2. *)
Definition pair_half : degroot FA :=
  let h := fdiv FA (f1 FA) (b64_of_Z 2) in
  mkDeGroot (a:=FA) (base_ctor None) (b64_of_Z 0) None
    (mkNet [mkSimple (f1 FA); mkSimple tiny] [[0%nat; 1%nat]; [0%nat; 1%nat]] [[h; h]; [h; h]] Incoming) [mkSimple (f1 FA); mkSimple tiny].
Example C85_instance k : INR k * INR 3 <= 2 ^ 52 -> exists m' me, degroot_run k pair_half = Ok m' /\ degroot_run k (exact_degroot pair_half) = Ok me /\
  forall i, (i < 2)%nat -> Rabs (nth i (values (@opinions FA (dg_net m'))) 0 - nth i (@opinions RA (dg_net me)) 0) <= 12 * INR k * INR 3 * (/ 2 ^ 53) * 1.
Proof.
  intros Hk. destruct (C85_normalised k pair_half 2 1 1) as (m' & me & E & Ee & _ & _ & _ & P).
  - split; [|reflexivity]. split; [reflexivity|]. split; [reflexivity|]. split.
    + intros [|[|i]] Hi; [reflexivity|reflexivity|]. cbn in Hi. lia.
    + intros [|[|[|i]]] j Hj; cbn in Hj |- *; lia.
  - assert (R : Rsum (map Rabs (values [fdiv FA (f1 FA) (b64_of_Z 2); fdiv FA (f1 FA) (b64_of_Z 2)])) <= 1).
    { cbn [values map]. rewrite !Rsum_cons, Rsum_nil, half_value, Rabs_right; lra. }
    intros [|[|i]] Hi; [| |cbn in Hi; lia]; (split; [cbn; lia|split; [repeat constructor; reflexivity|exact R]]).
  - lra.
  - rewrite pow1. lra.
  - exact Hk.
  - change (@opinions FA (dg_net pair_half)) with (@opinions FA (df_net df_half)). destruct C32_float_instance as (_ & _ & _ & _ & _ & H6).
    constructor; [split; [reflexivity|]|constructor; [split; [reflexivity|]|constructor]].
    + destruct (b64_exact 1 ltac:(lia)) as (V1 & _). match goal with |- Rabs ?t <= _ => change t with (value (b64_of_Z 1)) end. rewrite V1, Rabs_R1. lra.
    + match goal with |- Rabs ?t <= _ => change t with (value (tiny : double)) end. rewrite tiny_value. assert (0 < 2 ^ 60) by (apply pow_lt; lra). rewrite Rabs_right by (apply Rle_ge, Rlt_le, Rinv_0_lt_compat; lra). rewrite <- Rinv_1. apply Rinv_le_contravar; [lra|]. apply pow_R1_Rle. lra.
  - split; [rewrite <- Rinv_1; apply Rinv_le_contravar; [lra|]; apply pow_R1_Rle; lra|apply pow_R1_Rle; lra].
  - exists m', me. split; [exact E|]. split; [exact Ee|]. intros i Hi. apply (P i Hi).
Qed.
Print Assumptions C84_mean_drift.
Print Assumptions C84_exactly_conserved_refuted.
Print Assumptions C85_run.
Print Assumptions C85_normalised.
Print Assumptions C85_agreement_kept_refuted.
