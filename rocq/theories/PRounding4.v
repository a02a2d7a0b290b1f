(** DeGroot runs on doubles against exact runs. *)
From Coq Require Import Reals Lra Psatz.
From Flocq Require Import Core.Core IEEE754.BinarySingleNaN.
From Verif Require Import Base BaseFacts Arith64 RFacts MNetwork SNetwork MAgents MDeGroot SDeGroot PDeGroot PFloat SRounding PRounding PRounding3.
Local Open Scope R_scope.

Lemma iter_S {T : Type} (f : T -> T) k x : Nat.iter (S k) f x = f (Nat.iter k f x). Proof. reflexivity. Qed.
Lemma iter_swap {T : Type} (f : T -> T) k x : Nat.iter k f (f x) = f (Nat.iter k f x).
Proof. induction k as [|k IH]; [reflexivity|]. rewrite !iter_S. now f_equal. Qed.
Section Generic.
Context {a : Arith}.
(** One averaging step, on the list of opinions. *)
Definition avg_step (g : network (simple_agent (F a)) (F a)) (xs : list (F a)) : list (F a) :=
  map (fun i => weighted_sum xs (row g i)) (seq 0 (n_agents g)).
Lemma degroot_run_iter k : forall (m : degroot a), ready m ->
  exists m', degroot_run k m = Ok m' /\ ready m' /\ opinions (dg_net m') = Nat.iter k (avg_step (dg_net m)) (opinions (dg_net m)) /\
    neigh (dg_net m') = neigh (dg_net m) /\ wts (dg_net m') = wts (dg_net m) /\ n_agents (dg_net m') = n_agents (dg_net m).
Proof.
  induction k as [|k IH]; intros m HR.
  - exists m. cbn. auto 10.
  - cbn [degroot_run]. pose proof (iteration_ok a m HR) as E1. rewrite E1. cbn [bind].
    match goal with |- exists m', degroot_run k ?x = _ /\ _ => set (m1 := x) in * end.
    assert (HR1 : ready m1) by (eapply ready_next; [exact HR|exact E1]).
    destruct (IH m1 HR1) as (m' & E & A1 & A2 & A3 & A4 & A5). exists m'. split; [exact E|]. split; [exact A1|].
    assert (L1 : n_agents (dg_net m1) = n_agents (dg_net m)). { unfold m1, n_agents. cbn [dg_net agents with_agents]. rewrite map_length. apply averaged_length. }
    split; [|split; [exact A3|split; [exact A4|congruence]]].
    rewrite A2, iter_S, <- iter_swap.
    assert (S1 : forall xs, avg_step (dg_net m1) xs = avg_step (dg_net m) xs). { intros xs. unfold avg_step. now rewrite L1. }
    assert (O1 : opinions (dg_net m1) = avg_step (dg_net m) (opinions (dg_net m))). { unfold m1. cbn [dg_net]. rewrite opinions_with_agents. reflexivity. }
    rewrite O1. clear -S1. induction k as [|k IH]; [reflexivity|]. rewrite !iter_S. now rewrite S1, IH.
Qed.
End Generic.

Lemma exact_net_row (g : network (simple_agent float) float) i : row (exact_net g) i = exact_row (row g i).
Proof.
  unfold row, exact_row, exact_net. cbn [neigh wts].
  assert (E : nth i (map values (wts g)) [] = values (nth i (wts g) [])) by (change (@nil R) with (values []) at 1; apply map_nth).
  rewrite E. generalize (nth i (neigh g) []) as ns, (nth i (wts g) []) as ws. induction ns as [|n ns IH]; intros [|w ws]; cbn; auto. f_equal. apply IH.
Qed.
Lemma exact_net_agents (g : network (simple_agent float) float) : n_agents (exact_net g) = n_agents g.
Proof. unfold n_agents, exact_net. cbn [agents]. apply map_length. Qed.
Lemma exact_opinions (g : network (simple_agent float) float) : @opinions RA (exact_net g) = values (@opinions FA g).
Proof. unfold opinions, exact_net, values. cbn [agents]. rewrite !map_map. reflexivity. Qed.
Lemma exact_ready (m : degroot FA) : ready m -> ready (exact_degroot m).
Proof.
  intros ((W1 & W2 & W3 & W4) & HL). unfold ready, exact_degroot. cbn [dg_net agents_current_copy]. split.
  - unfold wf, exact_net. cbn [neigh wts agents]. rewrite !map_length. split; [exact W1|]. split; [exact W2|]. split; [|exact W4].
    intros i Hi. etransitivity; [apply (W3 i Hi)|]. change (@nil (F RA)) with (values []). match goal with |- _ = length (nth i (map values ?l) _) => rewrite (map_nth values l []) end. unfold values. symmetry. apply map_length.
  - rewrite map_length. rewrite exact_net_agents. exact HL.
Qed.
Lemma row_abs_combine (ns : list nat) (ws : list float) : length ns = length ws -> row_abs (combine ns ws) = Rsum (map Rabs (values ws)).
Proof.
  revert ws. induction ns as [|n ns IH]; intros [|w ws] H; try discriminate; [reflexivity|]. unfold row_abs in *. cbn [combine map snd values]. rewrite !Rsum_cons. f_equal. apply IH. cbn in H. lia.
Qed.
Lemma row_bounds (g : network (simple_agent float) float) d W i : wf g -> rows_bounded g d W -> (i < n_agents g)%nat ->
  (length (row g i) <= d)%nat /\ Forall (fun p => is_finite (snd p) = true) (row g i) /\ row_abs (row g i) <= W.
Proof.
  intros (W1 & W2 & W3 & W4) H Hi. destruct (H i Hi) as (H1 & H2 & H3). unfold row. split; [rewrite combine_length; lia|]. split.
  - apply Forall_forall. intros [n w] Hp. apply in_combine_r in Hp. rewrite Forall_forall in H2. apply (H2 w Hp).
  - rewrite row_abs_combine; [exact H3|]. now apply W3.
Qed.

(** One step: the new size and the new error. *)
Lemma step_err (g : network (simple_agent float) float) d W (xs : list float) (ys : list R) X e : wf g -> rows_bounded g d W -> 0 <= e -> 1 <= W ->
  (forall k, small_finite X (nth k xs (f0 FA))) -> (forall k, Rabs (value (nth k xs (f0 FA)) - nth k ys 0) <= e) ->
  gro (S d) * (W * X + INR d * eta64) <= big ->
  (forall k, small_finite (gro (S d) * (W * X + INR d * eta64)) (nth k (@avg_step FA g xs) (f0 FA))) /\
  (forall k, Rabs (value (nth k (@avg_step FA g xs) (f0 FA)) - nth k (@avg_step RA (exact_net g) ys) 0) <= W * e + (gro (S d) - 1) * W * X + INR d * gro (S d) * eta64).
Proof.
  intros Hw Hr He HW Hx Hy Hb. pose proof (gro_ge1 (S d)) as G1. pose proof eta64_pos as Et. pose proof (pos_INR d) as Id.
  assert (X0 : 0 <= X) by (destruct (Hx 0%nat) as (_ & B); pose proof (Rabs_pos (value (nth 0 xs (f0 FA)))); lra).
  assert (P1 : 0 <= W * X) by (apply Rmult_le_pos; lra). assert (P2 : 0 <= INR d * eta64) by (apply Rmult_le_pos; lra). assert (P3 : 0 <= W * e) by (apply Rmult_le_pos; lra).
  assert (P4 : 0 <= (gro (S d) - 1) * W * X) by (rewrite Rmult_assoc; apply Rmult_le_pos; lra).
  assert (P5 : INR d * gro (S d) * eta64 = gro (S d) * (INR d * eta64)) by ring. assert (P6 : 0 <= gro (S d) * (INR d * eta64)) by (apply Rmult_le_pos; lra).
  assert (key : forall k, (k < n_agents g)%nat ->
    small_finite (gro (S d) * (W * X + INR d * eta64)) (@weighted_sum FA xs (row g k)) /\
    Rabs (value (@weighted_sum FA xs (row g k) : float) - @weighted_sum RA ys (row (exact_net g) k)) <= W * e + (gro (S d) - 1) * W * X + INR d * gro (S d) * eta64).
  { intros k Hk. destruct (row_bounds g d W k Hw Hr Hk) as (R1 & R2 & R3). rewrite exact_net_row. set (r := row g k) in *.
    pose proof (row_abs_nonneg r) as R0. assert (RX : row_abs r * X <= W * X) by (apply Rmult_le_compat_r; lra).
    destruct (row_err xs X r d Hx R2 R1) as (A1 & A2 & A3).
    { eapply Rle_trans; [|exact Hb]. apply Rmult_le_compat_l; lra. }
    assert (A4 : (gro (S d) - 1) * (row_abs r * X) <= (gro (S d) - 1) * (W * X)) by (apply Rmult_le_compat_l; lra).
    assert (A5 : Rabs (@weighted_sum RA (values xs) (exact_row r) - @weighted_sum RA ys (exact_row r)) <= row_abs r * e).
    { clear -Hy He. unfold weighted_sum, row_abs. cbn [fadd fmul RA].
      assert (G : forall b c E, Rabs (b - c) <= E -> Rabs (fold_left (fun acc p => acc + snd p * nth (fst p) (values xs) 0) (exact_row r) b - fold_left (fun acc p => acc + snd p * nth (fst p) ys 0) (exact_row r) c)
         <= E + Rsum (map (fun p : nat * float => Rabs (value (snd p))) r) * e).
      { induction r as [|[n w] r IH]; intros b c E H; cbn [exact_row map fold_left fst snd].
        - rewrite Rsum_nil. lra.
        - rewrite Rsum_cons. rewrite Rmult_plus_distr_r, <- Rplus_assoc. apply IH.
          assert (En : nth n (values xs) 0 = value (nth n xs (f0 FA))) by (unfold values; change 0 with ((fun x : float => value x) (f0 FA)); apply (map_nth (fun x : float => value x))).
          rewrite En. replace (b + value w * value (nth n xs (f0 FA)) - (c + value w * nth n ys 0)) with ((b - c) + value w * (value (nth n xs (f0 FA)) - nth n ys 0)) by ring.
          eapply Rle_trans; [apply Rabs_triang|]. rewrite Rabs_mult. apply Rplus_le_compat; [exact H|]. apply Rmult_le_compat_l; [apply Rabs_pos|apply Hy]. }
      specialize (G 0 0 0 ltac:(rewrite Rminus_eq_0, Rabs_R0; lra)). rewrite Rplus_0_l in G. exact G. }
    assert (A6 : row_abs r * e <= W * e) by (apply Rmult_le_compat_r; lra).
    split; [split; [exact A1|]|].
    - eapply Rle_trans with (Rabs (value (@weighted_sum FA xs r : float) - @weighted_sum RA (values xs) (exact_row r)) + Rabs (@weighted_sum RA (values xs) (exact_row r))).
      + eapply Rle_trans; [|apply Rabs_triang]. right. f_equal. ring.
      + lra.
    - replace (value (@weighted_sum FA xs r : float) - @weighted_sum RA ys (exact_row r)) with
        ((value (@weighted_sum FA xs r : float) - @weighted_sum RA (values xs) (exact_row r)) + (@weighted_sum RA (values xs) (exact_row r) - @weighted_sum RA ys (exact_row r))) by ring.
      eapply Rle_trans; [apply Rabs_triang|]. lra. }
  assert (LF : length (@avg_step FA g xs) = n_agents g) by (unfold avg_step; now rewrite map_length, seq_length).
  assert (LR : length (@avg_step RA (exact_net g) ys) = n_agents g) by (unfold avg_step; rewrite map_length, seq_length; apply exact_net_agents).
  split; intros k; (destruct (Nat.lt_ge_cases k (n_agents g)) as [Hk|Hk]).
  - unfold avg_step. rewrite (nth_map_seq _ _ _ k (f0 FA) Hk). apply (key k Hk).
  - rewrite nth_overflow by lia. split; [reflexivity|]. change (value (f0 FA)) with 0. rewrite Rabs_R0. apply Rmult_le_pos; lra.
  - unfold avg_step. rewrite (nth_map_seq _ _ _ k (f0 FA) Hk), exact_net_agents. rewrite (nth_map_seq _ _ _ k 0 Hk). apply (key k Hk).
  - rewrite !nth_overflow by lia. change (value (f0 FA)) with 0. rewrite Rminus_eq_0, Rabs_R0. lra.
Qed.

(** [k] steps. *)
Lemma run_err (g : network (simple_agent float) float) d W (xs : list float) M k : wf g -> rows_bounded g d W -> 1 <= W ->
  (forall i, small_finite M (nth i xs (f0 FA))) -> (gro (S d) * W) ^ k * (M + INR k * (INR d * eta64)) <= big ->
  (forall i, small_finite ((gro (S d) * W) ^ k * (M + INR k * (INR d * eta64))) (nth i (Nat.iter k (@avg_step FA g) xs) (f0 FA))) /\
  (forall i, Rabs (value (nth i (Nat.iter k (@avg_step FA g) xs) (f0 FA)) - nth i (Nat.iter k (@avg_step RA (exact_net g)) (values xs)) 0) <= drift_bound d W M k).
Proof.
  intros Hw Hr HW Hx. pose proof (gro_ge1 (S d)) as G1. pose proof eta64_pos as Et. pose proof (pos_INR d) as Id.
  assert (M0 : 0 <= M) by (destruct (Hx 0%nat) as (_ & B); pose proof (Rabs_pos (value (nth 0 xs (f0 FA)))); lra).
  set (q := INR d * eta64). assert (Q0 : 0 <= q) by (apply Rmult_le_pos; lra). set (gd := gro (S d)) in *. set (G := gd * W).
  assert (HG : 1 <= G) by (unfold G; nra). assert (HGW : W <= G) by (unfold G; nra). assert (HGg : gd <= G) by (unfold G; nra).
  induction k as [|k IH]; intros Hb.
  - cbn [pow INR] in *. change (Nat.iter 0 (@avg_step FA g) xs) with xs. change (Nat.iter 0 (@avg_step RA (exact_net g)) (values xs)) with (values xs). split; intros i.
    + destruct (Hx i) as (F1 & B1). split; [exact F1|]. eapply Rle_trans; [exact B1|]. lra.
    + unfold drift_bound. cbn [pow INR]. assert (En : nth i (values xs) 0 = value (nth i xs (f0 FA))) by (unfold values; change 0 with ((fun x : float => value x) (f0 FA)); apply (map_nth (fun x : float => value x))).
      match goal with |- Rabs ?t <= _ => replace t with 0 end; [rewrite Rabs_R0; lra|]. symmetry. apply Rminus_diag_eq. symmetry. exact En.
  - assert (Pk : 1 <= G ^ k) by (apply pow_R1_Rle; lra). assert (PW : 1 <= W ^ k) by (apply pow_R1_Rle; lra). assert (PWG : W ^ k <= G ^ k) by (apply pow_incr; lra).
    pose proof (pos_INR k) as Ik. assert (Ikq : 0 <= INR k * q) by (apply Rmult_le_pos; lra).
    set (Xk := G ^ k * (M + INR k * q)). assert (HX0 : 0 <= Xk) by (unfold Xk; apply Rmult_le_pos; lra).
    assert (HXS : gd * (W * Xk + q) <= G ^ S k * (M + INR (S k) * q)).
    { rewrite S_INR. cbn [pow]. replace (gd * (W * Xk + q)) with (G * Xk + gd * q) by (unfold G; ring).
      replace (G * G ^ k * (M + (INR k + 1) * q)) with (G * Xk + G * G ^ k * q) by (unfold Xk; ring). apply Rplus_le_compat_l.
      apply Rmult_le_compat_r; [exact Q0|]. assert (G * 1 <= G * G ^ k) by (apply Rmult_le_compat_l; lra). lra. }
    assert (HXk : Xk <= big). { eapply Rle_trans; [|exact Hb]. eapply Rle_trans; [|exact HXS]. assert (W * Xk >= Xk) by nra. assert (0 <= W * Xk + q) by nra. nra. }
    destruct (IH HXk) as (I1 & I2).
    assert (e0 : 0 <= drift_bound d W M k). { unfold drift_bound. fold q gd G. apply Rplus_le_le_0_compat; [apply Rmult_le_pos; lra|]. apply Rmult_le_pos; lra. }
    destruct (step_err g d W (Nat.iter k (@avg_step FA g) xs) (Nat.iter k (@avg_step RA (exact_net g)) (values xs)) Xk (drift_bound d W M k) Hw Hr e0 HW I1 I2) as (S1 & S2).
    { fold q gd. eapply Rle_trans; [exact HXS|exact Hb]. }
    rewrite !iter_S. split; intros i.
    + destruct (S1 i) as (F1 & B1). split; [exact F1|]. eapply Rle_trans; [exact B1|]. exact HXS.
    + eapply Rle_trans; [apply S2|]. fold gd. replace (INR d * gd * eta64) with (gd * q) by (unfold q; ring). unfold drift_bound. fold q gd G. rewrite S_INR. cbn [pow].
      unfold Xk. set (Gk := G ^ k) in *. set (Wk := W ^ k) in *. set (ik := INR k) in *. clearbody Gk Wk ik.
      replace (W * ((Gk - Wk) * (M + ik * q) + ik * q * Gk) + (gd - 1) * W * (Gk * (M + ik * q)) + gd * q)
        with ((G * Gk - W * Wk) * (M + ik * q) + ik * q * (W * Gk) + gd * q) by (unfold G; ring).
      replace ((G * Gk - W * Wk) * (M + (ik + 1) * q) + (ik + 1) * q * (G * Gk)) with ((G * Gk - W * Wk) * (M + ik * q) + (G * Gk - W * Wk) * q + ik * q * (G * Gk) + q * (G * Gk)) by ring.
      assert (T1 : 0 <= (G * Gk - W * Wk) * q) by (apply Rmult_le_pos; [|exact Q0]; nra).
      assert (T2 : ik * q * (W * Gk) <= ik * q * (G * Gk)) by (apply Rmult_le_compat_l; [exact Ikq|]; apply Rmult_le_compat_r; lra).
      assert (T3 : gd * q <= q * (G * Gk)) by (rewrite (Rmult_comm q); apply Rmult_le_compat_r; [exact Q0|]; nra).
      lra.
Qed.
