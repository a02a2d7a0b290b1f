(** DeGroot averaging on doubles: error analysis. *)
From Coq Require Import Reals Lra Psatz.
From Flocq Require Import Core.Core IEEE754.BinarySingleNaN.
From Verif Require Import Base BaseFacts Arith64 RFacts MNetwork SNetwork MAgents MDeGroot SDeGroot PDeGroot PFloat SRounding PRounding.
Local Open Scope R_scope.

Lemma gro_ge1 j : 1 <= gro j.
Proof. unfold gro. apply pow_R1_Rle. pose proof u64_pos. lra. Qed.
Lemma gro_S j : gro (S j) = (1 + u64) * gro j. Proof. reflexivity. Qed.
Lemma gro_mono i j : (i <= j)%nat -> gro i <= gro j.
Proof. intros H. unfold gro. apply Rle_pow; [pose proof u64_pos; lra|exact H]. Qed.

(** One more product added to an accumulator. [S] bounds the exact partial sum absolutely, [T] the product. *)
Lemma acc_step (acc w x : float) (a e : R) j (Sa T : R) : is_finite acc = true -> is_finite w = true -> is_finite x = true ->
  0 <= Sa -> Rabs a <= Sa -> Rabs (value w * value x) <= T -> gro (S (S j)) * (Sa + T + INR (S j) * eta64) <= big ->
  Rabs (value acc - a) <= (gro (S j) - 1) * Sa + INR j * gro j * eta64 ->
  let acc' := fadd FA acc (fmul FA w x) : float in
  is_finite acc' = true /\ Rabs (a + value w * value x) <= Sa + T /\
  Rabs (value acc' - (a + value w * value x)) <= (gro (S (S j)) - 1) * (Sa + T) + INR (S j) * gro (S j) * eta64.
Proof.
  intros Fa Fw Fx HS Ha HT Hb Hacc acc'.
  pose proof u64_pos as U. pose proof eta64_pos as Et. pose proof (gro_ge1 j) as G0. pose proof (gro_ge1 (S j)) as G1. pose proof (gro_ge1 (S (S j))) as G2.
  pose proof (gro_S j) as E1. pose proof (gro_S (S j)) as E2. assert (T0 : 0 <= T) by (pose proof (Rabs_pos (value w * value x)); lra).
  pose proof (pos_INR j) as Ij. rewrite S_INR in *.
  set (g0 := gro j) in *. set (g1 := gro (S j)) in *. set (g2 := gro (S (S j))) in *. clearbody g0 g1 g2.
  assert (J0 : 0 <= INR j * eta64) by (apply Rmult_le_pos; lra).
  assert (B1 : Sa + T + (INR j + 1) * eta64 <= g2 * (Sa + T + (INR j + 1) * eta64)) by nra.
  destruct (fmul_err w x Fw Fx ltac:(nra)) as (Fp & Ep). set (p := fmul FA w x : float) in *. set (wx := value w * value x) in *.
  assert (Bp : Rabs (value p - wx) <= u64 * T + eta64) by nra.
  assert (Bs : Rabs (value acc + value p) <= g1 * Sa + INR j * g0 * eta64 + (1 + u64) * T + eta64).
  { replace (value acc + value p) with ((value acc - a) + a + ((value p - wx) + wx)) by ring.
    eapply Rle_trans; [apply Rabs_triang|]. pose proof (Rabs_triang (value acc - a) a). pose proof (Rabs_triang (value p - wx) wx). nra. }
  assert (H1 : (1 + u64) * T <= g2 * T) by (apply Rmult_le_compat_r; nra).
  assert (H2 : g1 * Sa <= g2 * Sa) by (apply Rmult_le_compat_r; nra).
  assert (H3 : g0 * (INR j * eta64) <= g2 * (INR j * eta64)) by (apply Rmult_le_compat_r; nra).
  destruct (fadd_err acc p Fa Fp ltac:(nra)) as (Fs & Es). fold acc' in Fs, Es.
  split; [exact Fs|]. split; [eapply Rle_trans; [apply Rabs_triang|]; lra|].
  assert (Hd : Rabs (value acc + value p - (a + wx)) <= (g1 - 1) * Sa + INR j * g0 * eta64 + (u64 * T + eta64)).
  { replace (value acc + value p - (a + wx)) with ((value acc - a) + (value p - wx)) by ring. eapply Rle_trans; [apply Rabs_triang|]. lra. }
  assert (Hs : u64 * Rabs (value acc + value p) <= u64 * (g1 * Sa + INR j * g0 * eta64 + (1 + u64) * T + eta64)) by (apply Rmult_le_compat_l; lra).
  replace (value acc' - (a + wx)) with ((value acc' - (value acc + value p)) + (value acc + value p - (a + wx))) by ring.
  eapply Rle_trans; [apply Rabs_triang|].
  assert (H4 : (1 + u64) * (1 + u64) * T <= g2 * T) by (apply Rmult_le_compat_r; [lra|]; rewrite E2, E1; nra).
  assert (H5 : (1 + u64) * eta64 <= g1 * eta64) by (apply Rmult_le_compat_r; [lra|]; rewrite E1; nra).
  eapply Rle_trans; [apply Rplus_le_compat; [eapply Rle_trans; [exact Es|exact Hs]|exact Hd]|].
  replace (u64 * (g1 * Sa + INR j * g0 * eta64 + (1 + u64) * T + eta64) + ((g1 - 1) * Sa + INR j * g0 * eta64 + (u64 * T + eta64)))
    with (((1 + u64) * g1 - 1) * Sa + INR j * ((1 + u64) * g0) * eta64 + ((1 + u64) * (1 + u64) * T - T) + (1 + u64) * eta64) by ring.
  rewrite <- E2, <- E1. lra.
Qed.

Definition row_abs (r : list (nat * float)) : R := Rsum (map (fun p => Rabs (value (snd p))) r).
Definition exact_row (r : list (nat * float)) : list (nat * R) := map (fun p => (fst p, value (snd p))) r.
Lemma row_abs_nonneg r : 0 <= row_abs r.
Proof. unfold row_abs. induction r as [|p r IH]; cbn [map]; [rewrite Rsum_nil; lra|]. rewrite Rsum_cons. apply Rplus_le_le_0_compat; [apply Rabs_pos|exact IH]. Qed.

Lemma fold_err (xs : list float) X (r : list (nat * float)) : forall (acc : float) (a : R) j Sa,
  (forall k, small_finite X (nth k xs (f0 FA))) -> Forall (fun p => is_finite (snd p) = true) r ->
  is_finite acc = true -> 0 <= Sa -> Rabs a <= Sa ->
  gro (S (j + length r)) * (Sa + row_abs r * X + INR (j + length r) * eta64) <= big ->
  Rabs (value acc - a) <= (gro (S j) - 1) * Sa + INR j * gro j * eta64 ->
  let f := fold_left (fun acc p => fadd FA acc (fmul FA (snd p) (nth (fst p) xs (f0 FA)))) r acc : float in
  let f' := fold_left (fun acc p => acc + snd p * nth (fst p) (values xs) 0) (exact_row r) a in
  is_finite f = true /\ Rabs f' <= Sa + row_abs r * X /\
  Rabs (value f - f') <= (gro (S (j + length r)) - 1) * (Sa + row_abs r * X) + INR (j + length r) * gro (j + length r) * eta64.
Proof.
  intros acc a j Sa Hx. revert acc a j Sa. assert (X0 : 0 <= X) by (destruct (Hx 0%nat) as (_ & B); pose proof (Rabs_pos (value (nth 0 xs (f0 FA)))); lra).
  induction r as [|[i w] r IH]; intros acc a j Sa HF Fa HS Ha Hb He.
  - cbn [fold_left length exact_row map row_abs]. unfold row_abs. cbn [map]. rewrite Rsum_nil, Nat.add_0_r. replace (Sa + 0 * X) with Sa by ring. auto.
  - inversion HF as [|p r' Fw HF']; subst. cbn [snd] in Fw. destruct (Hx i) as (Fx & Bx).
    assert (Er : row_abs ((i, w) :: r) = Rabs (value w) + row_abs r) by (unfold row_abs; cbn [map snd]; now rewrite Rsum_cons).
    rewrite Er in *. cbn [length] in *. rewrite Nat.add_succ_r in *.
    pose proof (row_abs_nonneg r) as Rn. pose proof (Rabs_pos (value w)) as Wn. pose proof eta64_pos as Et.
    assert (HT : Rabs (value w * value (nth i xs (f0 FA))) <= Rabs (value w) * X) by (rewrite Rabs_mult; apply Rmult_le_compat_l; lra).
    assert (HTn : 0 <= Rabs (value w) * X) by (apply Rmult_le_pos; lra). assert (HRn : 0 <= row_abs r * X) by (apply Rmult_le_pos; lra).
    assert (G : gro (S (S j)) * (Sa + Rabs (value w) * X + INR (S j) * eta64) <= big).
    { eapply Rle_trans; [|exact Hb]. apply Rmult_le_compat.
      - pose proof (gro_ge1 (S (S j))). lra.
      - pose proof (pos_INR (S j)). assert (0 <= INR (S j) * eta64) by (apply Rmult_le_pos; lra). lra.
      - apply gro_mono. lia.
      - assert (INR (S j) <= INR (S (j + length r))) by (apply le_INR; lia). assert (INR (S j) * eta64 <= INR (S (j + length r)) * eta64) by (apply Rmult_le_compat_r; lra). lra. }
    destruct (acc_step acc w (nth i xs (f0 FA)) a 0 j Sa (Rabs (value w) * X) Fa Fw Fx HS Ha HT G He) as (F' & A' & E').
    specialize (IH (fadd FA acc (fmul FA w (nth i xs (f0 FA)))) (a + value w * value (nth i xs (f0 FA))) (S j) (Sa + Rabs (value w) * X) HF' F' ltac:(lra) A').
    rewrite Nat.add_succ_l in IH. replace (Sa + Rabs (value w) * X + row_abs r * X) with (Sa + (Rabs (value w) + row_abs r) * X) in IH by ring.
    specialize (IH Hb E'). cbn [fold_left exact_row map fst snd]. 
    assert (En : nth i (values xs) 0 = value (nth i xs (f0 FA))) by (unfold values; change 0 with ((fun x : float => value x) (f0 FA)); apply (map_nth (fun x : float => value x))).
    rewrite En. exact IH.
Qed.

(** A row sum in double arithmetic. *)
Lemma row_err (xs : list float) X (r : list (nat * float)) d : 
  (forall k, small_finite X (nth k xs (f0 FA))) -> Forall (fun p => is_finite (snd p) = true) r -> (length r <= d)%nat ->
  gro (S d) * (row_abs r * X + INR d * eta64) <= big ->
  is_finite (@weighted_sum FA xs r : float) = true /\ Rabs (@weighted_sum RA (values xs) (exact_row r)) <= row_abs r * X /\
  Rabs (value (@weighted_sum FA xs r : float) - @weighted_sum RA (values xs) (exact_row r)) <= (gro (S d) - 1) * (row_abs r * X) + INR d * gro (S d) * eta64.
Proof.
  intros Hx HF Hd Hb. pose proof eta64_pos as Et. pose proof (row_abs_nonneg r) as Rn.
  assert (X0 : 0 <= X) by (destruct (Hx 0%nat) as (_ & B); pose proof (Rabs_pos (value (nth 0 xs (f0 FA)))); lra).
  assert (P0 : 0 <= row_abs r * X) by (apply Rmult_le_pos; lra). assert (IL : INR (length r) <= INR d) by (apply le_INR; lia). pose proof (pos_INR (length r)) as I0.
  destruct (fold_err xs X r (f0 FA) 0 0 0 Hx HF eq_refl) as (A & B & C).
  - lra.
  - rewrite Rabs_R0. lra.
  - cbn [Nat.add]. eapply Rle_trans; [|exact Hb]. rewrite Rplus_0_l. apply Rmult_le_compat.
    + pose proof (gro_ge1 (S (length r))). lra.
    + assert (0 <= INR (length r) * eta64) by (apply Rmult_le_pos; lra). lra.
    + apply gro_mono. lia.
    + assert (INR (length r) * eta64 <= INR d * eta64) by (apply Rmult_le_compat_r; lra). lra.
  - cbn [INR]. change (value (f0 FA)) with 0. rewrite Rminus_eq_0, Rabs_R0. lra.
  - rewrite Rplus_0_l in B, C. cbn [Nat.add] in C. split; [exact A|]. split; [exact B|]. eapply Rle_trans; [exact C|].
    pose proof (gro_mono (S (length r)) (S d) ltac:(lia)) as M1. pose proof (gro_mono (length r) (S d) ltac:(lia)) as M2. pose proof (gro_ge1 (length r)).
    apply Rplus_le_compat; [apply Rmult_le_compat_r; lra|]. apply Rmult_le_compat_r; [lra|]. apply Rmult_le_compat; lra.
Qed.
