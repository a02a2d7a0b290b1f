(** Evenly coupled populations. *)
From Verif Require Import Base BaseFacts Arith64 RFacts MRandom SRandom PRandom MDist MNetwork SNetwork PNetwork PNetwork2
  MAgents MDeGroot MActivity SActivity PActStep PActNet PActIter PActMean PActIter2 PActThm PActSym PActReal PActMean2 TMean
  SRelax PRelax PTanh PTanh2 PRelax2.
From Coq Require Import Reals Lra Psatz.
Local Open Scope R_scope.

Lemma total_weight_pos r : Forall (fun p => 0 <= snd p) r -> total_weight r = Rsum (map snd r).
Proof. intros H. unfold total_weight. f_equal. apply map_ext_in. intros p Hp. rewrite Forall_forall in H. apply Rabs_right, Rle_ge, (H p Hp). Qed.
(** Weighted sums of values in an interval. *)
Lemma weighted_bounds r (f : nat -> R) lo hi : Forall (fun p => 0 <= snd p) r -> Forall (fun p => lo <= f (fst p) <= hi) r ->
  lo * total_weight r <= Rsum (map (fun p => snd p * f (fst p)) r) <= hi * total_weight r.
Proof.
  intros Hw Hf. rewrite total_weight_pos by exact Hw. induction r as [|p r IH]; cbn [map]; [rewrite !Rsum_nil; lra|].
  inversion Hw; inversion Hf; subst. rewrite !Rsum_cons. destruct (IH H2 H6) as [A B]. split; nra.
Qed.
Lemma pull_const (st : ad_settings (F RA)) rel r S p : hears_evenly st rel S r -> social_pull st rel r (fun _ => p) = S * tanh (alpha st * p).
Proof.
  intros [Hw Hs]. unfold social_pull. rewrite <- Hs, total_weight_pos by exact Hw. rewrite Rmult_assoc. f_equal.
  clear Hs. induction r as [|x r IH]; cbn [map]; [rewrite !Rsum_nil; ring|]. inversion Hw; subst. rewrite !Rsum_cons, IH by assumption. ring.
Qed.
Lemma pull_near (st : ad_settings (F RA)) rel r S p d e (y : nat -> R) : 0 < alpha st -> 0 < S -> hears_evenly st rel S r -> S * tanh (alpha st * p) = p ->
  0 <= e <= d -> d <= p -> Forall (fun x => Rabs (y (fst x) - p) <= e) r ->
  Rabs (social_pull st rel r y - p) <= S * alpha st * (1 - tanh (alpha st * (p - d)) * tanh (alpha st * (p - d))) * e.
Proof.
  intros Ha HS He Hp Hd Hdp Hy. assert (PC : p = social_pull st rel r (fun _ => p)) by (rewrite (pull_const st rel r S p He); auto).
  replace (social_pull st rel r y - p) with (social_pull st rel r y - social_pull st rel r (fun _ => p)) by (now rewrite <- PC). clear PC. destruct He as [Hw Hs].
  set (c := 1 - tanh (alpha st * (p - d)) * tanh (alpha st * (p - d))). unfold social_pull. rewrite <- Rmult_minus_distr_l, Rabs_mult.
  pose proof (total_weight_nonneg r) as T0.
  assert (HK : 0 < K st / rel). { assert (Q : forall u v : R, u * v = S -> 0 <= v -> 0 < u) by (intros u v Q1 Q2; destruct (Rle_lt_dec u 0) as [N|N]; auto; nra). exact (Q _ _ Hs T0). }
  match goal with |- Rabs ?u * _ <= _ => rewrite (Rabs_right u) by (apply Rle_ge, Rlt_le; exact HK) end.
  apply Rle_trans with (K st / rel * (total_weight r * (c * (alpha st * e)))); [|right; match goal with |- _ = ?S0 * _ * _ * _ => assert (Q : forall u v w z e0 : R, u * v = S0 -> u * (v * (w * (z * e0))) = S0 * z * w * e0) by (intros ? ? ? ? ? <-; ring) end; apply Q, Hs].
  apply Rmult_le_compat_l; [lra|]. rewrite total_weight_pos by exact Hw. clear Hs T0.
  induction r as [|x r IH]; cbn [map]; [rewrite !Rsum_nil, Rminus_0_r, Rabs_R0; lra|]. inversion Hw; inversion Hy; subst. rewrite !Rsum_cons.
  specialize (IH H2 H6). set (S1 := Rsum (map (fun p0 => snd p0 * tanh (alpha st * y (fst p0))) r)) in *.
  set (S2 := Rsum (map (fun p0 => snd p0 * tanh (alpha st * p)) r)) in *. set (S3 := Rsum (map snd r)) in *.
  replace (snd x * tanh (alpha st * y (fst x)) + S1 - (snd x * tanh (alpha st * p) + S2))
    with (snd x * (tanh (alpha st * y (fst x)) - tanh (alpha st * p)) + (S1 - S2)) by ring.
  eapply Rle_trans; [apply Rabs_triang|]. rewrite Rmult_plus_distr_r. apply Rplus_le_compat; [|exact IH].
  rewrite Rabs_mult, (Rabs_right (snd x)) by lra. apply Rmult_le_compat_l; [lra|].
  pose proof (abs_le_iff (y (fst x) - p) e) as [AB _]. specialize (AB H5).
  eapply Rle_trans; [apply (tanh_lipschitz_from (alpha st * (p - d)))|].
  - apply Rmult_le_pos; lra.
  - apply Rmult_le_compat_l; lra.
  - apply Rmult_le_compat_l; lra.
  - fold c. apply Rmult_le_compat_l; [unfold c; apply Rlt_le, sech_pos|]. rewrite <- Rmult_minus_distr_l, Rabs_mult, (Rabs_right (alpha st)) by lra.
    apply Rmult_le_compat_l; lra.
Qed.
(** Scaling all (non-negative) opinions down by at most l scales the pull down by at most l. *)
Lemma pull_scale (st : ad_settings (F RA)) rel r l (x y : nat -> R) : 0 < K st / rel -> 0 < alpha st -> 0 <= l <= 1 -> Forall (fun p => 0 <= snd p) r ->
  Forall (fun p => 0 <= x (fst p) /\ l * x (fst p) <= y (fst p)) r -> l * social_pull st rel r x <= social_pull st rel r y.
Proof.
  intros HK Ha Hl Hw Hy. unfold social_pull. rewrite <- Rmult_assoc, (Rmult_comm l), Rmult_assoc. apply Rmult_le_compat_l; [lra|].
  induction r as [|p r IH]; cbn [map]; [rewrite !Rsum_nil; lra|]. inversion Hw; inversion Hy; subst. rewrite !Rsum_cons, Rmult_plus_distr_l.
  apply Rplus_le_compat; [|apply IH; assumption]. rewrite <- Rmult_assoc, (Rmult_comm l), Rmult_assoc. apply Rmult_le_compat_l; [lra|].
  eapply Rle_trans; [apply tanh_scale; [exact Hl|nra]|]. apply tanh_monotone. replace (l * (alpha st * x (fst p))) with (alpha st * (l * x (fst p))) by ring. apply Rmult_le_compat_l; lra.
Qed.
Lemma pull_least (st : ad_settings (F RA)) rel r S mu (x : nat -> R) : 0 < alpha st -> 0 <= mu -> hears_at_least st rel S r -> Forall (fun p => mu <= x (fst p)) r ->
  S * tanh (alpha st * mu) <= social_pull st rel r x.
Proof.
  intros Ha Hm (Hw & HK & HS) Hx. pose proof (tanh_nonneg (alpha st * mu) ltac:(nra)) as T.
  apply Rle_trans with (K st / rel * total_weight r * tanh (alpha st * mu)); [apply Rmult_le_compat_r; auto|].
  rewrite Rmult_assoc. unfold social_pull. apply Rmult_le_compat_l; [lra|]. rewrite Rmult_comm.
  apply (weighted_bounds r (fun j => tanh (alpha st * x j)) (tanh (alpha st * mu)) 1 Hw).
  eapply Forall_impl; [|exact Hx]. cbv beta. intros p Hp. split; [apply tanh_monotone; apply Rmult_le_compat_l; lra|].
  pose proof (tanh_abs_lt_1 (alpha st * x (fst p))) as Q. apply Rabs_def2 in Q. lra.
Qed.

(** A step from non-negative opinions: no stage is below (1 - h) times the opinions. *)
Lemma positive_step n (x y2 y3 y4 : nat -> R) (G : nat -> (nat -> R) -> R) h mu T :
  0 < h <= 1 / 2 -> 0 <= mu -> 0 <= T ->
  (forall i (u v : nat -> R) l, (i < n)%nat -> 0 <= l <= 1 -> (forall j, (j < n)%nat -> 0 <= u j /\ l * u j <= v j) -> l * G i u <= G i v) ->
  (forall j, (j < n)%nat -> mu <= x j) -> (forall i, (i < n)%nat -> T <= G i x) ->
  (forall i, (i < n)%nat -> y2 i = x i + h / 2 * (G i x - x i) /\ y3 i = x i + h / 2 * (G i y2 - y2 i) /\ y4 i = x i + h * (G i y3 - y3 i)) ->
  forall i, (i < n)%nat ->
    decay h * mu + (1 - decay h) * ((1 - h) * T) <=
    x i + h / 6 * ((G i x - x i) + 2 * (G i y2 - y2 i) + 2 * (G i y3 - y3 i) + (G i y4 - y4 i)).
Proof.
  intros Hh Hm HT HG Hx HX Hy.
  assert (Hsq : 0 <= h ^ 2 <= h / 2) by nra. assert (Hcu : 0 <= h ^ 3 <= h ^ 2 / 2) by nra.
  assert (Hx0 : forall j, (j < n)%nat -> 0 <= x j) by (intros j Hj; specialize (Hx j Hj); lra).
  assert (G0 : forall j, (j < n)%nat -> 0 <= G j x) by (intros j Hj; specialize (HX j Hj); lra).
  assert (A2 : forall j, (j < n)%nat -> (1 - h / 2) * x j <= y2 j).
  { intros j Hj. destruct (Hy j Hj) as (-> & _). specialize (G0 j Hj). nra. }
  assert (G2 : forall j, (j < n)%nat -> (1 - h / 2) * G j x <= G j y2) by (intros j Hj; apply HG; auto; lra).
  assert (A3 : forall j, (j < n)%nat -> (1 - h) * y2 j <= y3 j /\ (1 - h) * x j <= y3 j).
  { intros j Hj. destruct (Hy j Hj) as (E2 & E3 & _). specialize (G0 j Hj). specialize (G2 j Hj). specialize (Hx0 j Hj).
    assert (B : (1 - h / 2 + h ^ 2 / 4) * x j + (h / 2 - h ^ 2 / 2) * G j x <= y3 j).
    { rewrite E3, E2. replace (x j + h / 2 * (G j y2 - (x j + h / 2 * (G j x - x j)))) with ((1 - h / 2 + h ^ 2 / 4) * x j - h ^ 2 / 4 * G j x + h / 2 * G j y2) by field.
      assert (h / 2 * ((1 - h / 2) * G j x) <= h / 2 * G j y2) by (apply Rmult_le_compat_l; lra). nra. }
    assert (0 <= (h / 2 - h ^ 2 / 2) * G j x) by (apply Rmult_le_pos; lra).
    split; [|nra]. rewrite E2. nra. }
  assert (Y2 : forall j, (j < n)%nat -> 0 <= y2 j) by (intros j Hj; specialize (A2 j Hj); specialize (Hx0 j Hj); nra).
  assert (G3 : forall j, (j < n)%nat -> (1 - h) * G j y2 <= G j y3).
  { intros j Hj. apply (HG j y2 y3 (1 - h) Hj ltac:(lra)). intros u Hu. split; [apply Y2; auto|apply A3; auto]. }
  assert (A4 : forall j, (j < n)%nat -> (1 - h) * x j <= y4 j).
  { intros j Hj. destruct (Hy j Hj) as (E2 & E3 & E4). specialize (G0 j Hj). specialize (G2 j Hj). specialize (G3 j Hj). specialize (Hx0 j Hj).
    rewrite E4, E3, E2. replace (x j + h * (G j y3 - (x j + h / 2 * (G j y2 - (x j + h / 2 * (G j x - x j))))))
      with ((1 - h + h ^ 2 / 2 - h ^ 3 / 4) * x j + h ^ 3 / 4 * G j x - h ^ 2 / 2 * G j y2 + h * G j y3) by field.
    assert (h * ((1 - h) * G j y2) <= h * G j y3) by (apply Rmult_le_compat_l; lra).
    assert (0 <= G j y2) by (assert (0 <= (1 - h / 2) * G j x) by (apply Rmult_le_pos; lra); lra).
    assert (0 <= (h * (1 - h) - h ^ 2 / 2) * G j y2) by (apply Rmult_le_pos; nra).
    assert (0 <= h ^ 3 / 4 * G j x) by (apply Rmult_le_pos; lra). assert (0 <= (h ^ 2 / 2 - h ^ 3 / 4) * x j) by (apply Rmult_le_pos; lra). nra. }
  intros i Hi. destruct (Hy i Hi) as (E2 & E3 & E4). rewrite (mixture _ _ _ _ _ _ _ _ _ E2 E3 E4).
  destruct (mixture_pos h ltac:(lra)) as (P0 & P1 & P2 & P3 & P4 & _). pose proof (mixture_sum h) as PS.
  assert (K2 : (1 - h) * T <= G i y2). { specialize (G2 i Hi). specialize (HX i Hi). nra. }
  assert (K3 : (1 - h) * T <= G i y3).
  { assert (Q : (1 - h) * G i x <= G i y3) by (apply (HG i x y3 (1 - h) Hi ltac:(lra)); intros u Hu; split; [apply Hx0; auto|apply A3; auto]). specialize (HX i Hi). nra. }
  assert (K4 : (1 - h) * T <= G i y4).
  { assert (Q : (1 - h) * G i x <= G i y4) by (apply (HG i x y4 (1 - h) Hi ltac:(lra)); intros u Hu; split; [apply Hx0; auto|apply A4; auto]). specialize (HX i Hi). nra. }
  assert (K1 : (1 - h) * T <= G i x) by (specialize (HX i Hi); nra).
  specialize (Hx i Hi). set (t := (1 - h) * T) in *.
  replace (decay h * mu + (1 - decay h) * t) with (decay h * mu + mix1 h * t + mix2 h * t + mix3 h * t + mix4 h * t) by (rewrite <- PS; ring).
  assert (decay h * mu <= decay h * x i) by (apply Rmult_le_compat_l; lra).
  assert (mix1 h * t <= mix1 h * G i x) by (apply Rmult_le_compat_l; lra). assert (mix2 h * t <= mix2 h * G i y2) by (apply Rmult_le_compat_l; lra).
  assert (mix3 h * t <= mix3 h * G i y3) by (apply Rmult_le_compat_l; lra). assert (mix4 h * t <= mix4 h * G i y4) by (apply Rmult_le_compat_l; lra). lra.
Qed.

(** ** Mean-field rows without homophily *)
Lemma Rsum_all_but (x : R) n i : (i < n)%nat -> Rsum (map (fun j => if (j =? i)%nat then 0 else x) (seq 0 n)) = (INR n - 1) * x.
Proof.
  assert (A : forall n s, (i < s \/ s + n <= i)%nat -> Rsum (map (fun j => if (j =? i)%nat then 0 else x) (seq s n)) = INR n * x).
  { clear. induction n as [|n IH]; intros s H; [cbn [seq map INR]; rewrite Rsum_nil; ring|]. cbn [seq map]. rewrite Rsum_cons, S_INR, IH by lia.
    destruct (Nat.eqb_spec s i); [lia|ring]. }
  intros H. replace n with (i + S (n - i - 1))%nat at 1 by lia. rewrite seq_app, map_app, Rsum_app. cbn [seq map]. rewrite Rsum_cons, !A by lia.
  rewrite Nat.add_0_l, Nat.eqb_refl. replace (INR n) with (INR i + (1 + INR (n - i - 1))). 2:{ rewrite (Rplus_comm 1), <- S_INR, <- plus_INR. f_equal. lia. } ring.
Qed.

Section Even.
Context (lm : Libm RA).
Hypothesis Hpow : lpow RA lm = Rpow.
Lemma even_probability (st : ad_settings (F RA)) (l : list (activity_agent (F RA))) i j x : (2 <= length l)%nat ->
  (i < length l)%nat -> (j < length l)%nat -> i <> j -> n_bots st = 0%nat -> homophily st = 0 -> nth_error l i = Some x -> (a_activity x <= 1)%R ->
  contact_probability (a:=RA) lm (activity_ops (F RA)) st l i j = contact_chance (length l) (Z.to_nat (m st)).
Proof using Hpow.
  intros HL Hi Hj Hne Hb Hh Ex Ha.
  assert (Haf : forall v, (v < length l)%nat -> affinity (a:=RA) lm (activity_ops (F RA)) st l i v = if (v =? i)%nat then 0 else 1).
  { intros v Hv. unfold affinity. destruct (Nat.eqb_spec v i); auto. rewrite Ex.
    destruct (nth_error l v) as [y|] eqn:Ey. 2:{ apply nth_error_None in Ey. lia. }
    unfold homophily_of. rewrite Hb. cbn [Nat.ltb Nat.leb]. rewrite Hpow.
    assert (Hp : forall b h : R, 0 < b -> h = 0 -> Rpow b (- h) = 1).
    { intros b h Hb0 ->. unfold Rpow. destruct (Rlt_dec 0 b); [|lra]. rewrite Ropp_0; unfold Rpower; rewrite Rmult_0_l. apply exp_0. }
    apply Hp; [|exact Hh]. unfold fmax. cbn [flt RA].
    assert (H0 : 0 < lit10 (a:=RA) 1 10).
    { unfold lit10. cbn -[IZR Z.pow_pos]. apply Rdiv_lt_0_compat; [lra|]. now apply IZR_lt. }
    match goal with |- 0 < (if Rltb ?u ?w then _ else _) => destruct (Rltb_spec u w) end; [|exact H0].
    eapply Rlt_trans; [exact H0|exact r]. }
  assert (HN : 0 < INR (length l) - 1). { apply le_INR in HL. change (INR 2) with (1 + 1) in HL. lra. }
  assert (Hsh : share (a:=RA) lm (activity_ops (F RA)) st l i j = 1 / (INR (length l) - 1)).
  { unfold share. rewrite total_affinity_R. rewrite (Haf j Hj), (proj2 (Nat.eqb_neq j i)) by auto.
    assert (ET : Rsum (map (affinity (a:=RA) lm (activity_ops (F RA)) st l i) (seq 0 (length l))) = INR (length l) - 1).
    { rewrite (map_ext_in _ (fun v => if (v =? i)%nat then 0 else 1)); [rewrite Rsum_all_but by exact Hi; ring|].
      intros v Hv. apply in_seq in Hv. apply Haf. lia. }
    rewrite ET. reflexivity. }
  unfold contact_probability. rewrite Ex, Hsh.
  assert (Hm : fmax RA (f1 RA) (get_activity (activity_ops (F RA)) x) = 1).
  { unfold fmax. cbn [flt f1 RA get_activity activity_ops]. destruct (Rltb_spec 1 (a_activity x)) as [C|C]; auto. exfalso. exact (Rlt_irrefl 1 (Rlt_le_trans _ _ _ C Ha)). }
  rewrite Hm. cbn [fmul RA]. rewrite Rmult_1_l.
  assert (Hc : contact_count st i = Z.to_nat (m st)) by (unfold contact_count; rewrite Hb; reflexivity). rewrite Hc.
  apply (rounds_R lm Hpow (1 / (INR (length l) - 1)) (Z.to_nat (m st))). apply Rlt_le, Rdiv_lt_0_compat; lra.
Qed.

Context (g : Rng RA) (q : PQ RA).
Hypothesis Hq : pq_bag q.
(** Every agent hears every other one with the same weight. *)
Lemma even_rows (md md' : ad_model (a:=RA) (activity_agent (F RA))) s s' i : ad_ready md -> mean_weights (ad_set md) = true -> (2 <= n_agents (ad_net md))%nat ->
  n_bots (ad_set md) = 0%nat -> homophily (ad_set md) = 0 -> Forall (fun x : R => x <= 1) (map a_activity (agents (ad_net md))) ->
  activity_iteration (a:=RA) lm g q md s = Ok (md', s') -> (i < n_agents (ad_net md))%nat ->
  row (ad_net md') i = map (fun j => (j, if (j =? i)%nat then 0 else even_weight (n_agents (ad_net md)) (Z.to_nat (m (ad_set md))) (reciprocity (ad_set md)))) (seq 0 (n_agents (ad_net md))).
Proof using Hpow Hq.
  intros Hr Hm HL Hb Hh Ha E Hi. destruct (C45_activity_weights (a:=RA) lm g q md md' s s' Hq Hr Hm E) as (D1 & D2 & D3).
  unfold n_agents in *. rewrite (D3 i Hi). apply map_ext_in. intros j Hj. apply in_seq in Hj. f_equal.
  set (l := agents (ad_net md)) in *. eapply eq_trans; [apply (C45_weight_formula (reciprocity (ad_set md)))|].
  destruct (Nat.eqb_spec j i) as [->|N].
  - rewrite !(self_probability lm Hpow (activity_ops (F RA))) by assumption. match goal with |- ?u = ?w => change (@eq R u w) end. ring.
  - assert (P : forall u v, (u < length l)%nat -> (v < length l)%nat -> u <> v -> contact_probability (a:=RA) lm (activity_ops (F RA)) (ad_set md) l u v = contact_chance (length l) (Z.to_nat (m (ad_set md)))).
    { intros u v Hu Hv Hn. destruct (nth_error l u) as [x|] eqn:Ex. 2:{ apply nth_error_None in Ex. lia. }
      apply (even_probability (ad_set md) l u v x); auto. rewrite Forall_forall in Ha. apply (Ha (a_activity x)). apply in_map. eapply nth_error_In; eauto. }
    rewrite !P by (auto; lia). reflexivity.
Qed.
End Even.

Lemma even_row_weight n i w : (i < n)%nat -> 0 <= w ->
  let r := map (fun j => (j, if (j =? i)%nat then 0 else w)) (seq 0 n) in
  Forall (fun p => 0 <= snd p) r /\ total_weight r = (INR n - 1) * w.
Proof.
  intros Hi Hw r. assert (F : Forall (fun p => 0 <= snd p) r).
  { unfold r. apply Forall_map, Forall_forall. intros j _. cbn [snd]. destruct (j =? i)%nat; lra. }
  split; auto. rewrite total_weight_pos by exact F. unfold r. rewrite map_map. cbn [snd]. now apply Rsum_all_but.
Qed.

(** The contact chance is close to mm / (n - 1). *)
Lemma contact_chance_bounds n mm : (2 <= n)%nat -> 
  INR mm * ((1 / (INR n - 1)) * (1 - 1 / (INR n - 1)) / (1 / (INR n - 1) + 1)) <= contact_chance n mm <= INR mm * (1 / (INR n - 1)).
Proof.
  intros Hn. assert (HN : 1 <= INR n - 1). { apply le_INR in Hn. change (INR 2) with (1 + 1) in Hn. lra. }
  unfold contact_chance. set (w := 1 / (INR n - 1)).
  assert (Hw : 0 < w <= 1). { unfold w. split; [apply Rdiv_lt_0_compat; lra|]. apply Rmult_le_reg_r with (INR n - 1); [lra|]. unfold Rdiv. rewrite Rmult_assoc, Rinv_l by lra. lra. }
  assert (B : forall k, (1 <= k)%nat -> w * (1 - w) / (w + 1) <= ((- w) ^ (k + 1) + w) / (w + 1) <= w).
  { intros k Hk. assert (Q : - w ^ 2 <= (- w) ^ (k + 1) <= w ^ 2).
    { assert (Q' : Rabs ((- w) ^ (k + 1)) <= w ^ 2).
      { rewrite <- RPow_abs, Rabs_Ropp, (Rabs_right w) by lra. replace (k + 1)%nat with (2 + (k - 1))%nat by lia. rewrite pow_add.
        assert (0 <= w ^ (k - 1) <= 1). { split; [apply pow_le; lra|]. rewrite <- (pow1 (k - 1)). apply pow_incr. lra. } assert (0 <= w ^ 2) by (apply pow_le; lra). nra. }
      apply abs_le_iff in Q'. exact Q'. }
    assert (0 < / (w + 1)) by (apply Rinv_0_lt_compat; lra). split.
    - unfold Rdiv. apply Rmult_le_compat_r; [lra|]. lra.
    - apply Rmult_le_reg_r with (w + 1); [lra|]. unfold Rdiv. rewrite Rmult_assoc, Rinv_l by lra. nra. }
  pose proof (Rsum_bounds (fun k => ((- w) ^ (k + 1) + w) / (w + 1)) (seq 1 mm) (w * (1 - w) / (w + 1)) w) as P.
  rewrite seq_length in P. apply P. intros k Hk. apply in_seq in Hk. apply B. lia.
Qed.
