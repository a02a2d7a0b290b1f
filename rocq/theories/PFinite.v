(** Rounded Runge-Kutta steps stay bounded. *)
From Coq Require Import Reals Lra Psatz.
From Flocq Require Import Core.Core IEEE754.BinarySingleNaN.
From Verif Require Import Base BaseFacts Arith64 RFacts MRandom MNetwork SNetwork MAgents MActivity SActivity SRelax PRelax PFloat SRounding PRounding.
Local Open Scope R_scope.

(** [x] is finite and within [e] of [v]. *)
Definition near (x : float) (v e : R) : Prop := is_finite x = true /\ Rabs (value x - v) <= e.
Lemma near_size x v e : near x v e -> Rabs (value x) <= Rabs v + e.
Proof. intros (_ & H). replace (value x) with (v + (value x - v)) by ring. eapply Rle_trans; [apply Rabs_triang|]. lra. Qed.
Lemma near_weaken x v e e' : near x v e -> e <= e' -> near x v e'.
Proof. intros (F1 & H) He. split; [exact F1|lra]. Qed.
Lemma near_self x : is_finite x = true -> near x (value x) 0.
Proof. intros F1. split; [exact F1|]. rewrite Rminus_eq_0, Rabs_R0. lra. Qed.
Lemma near_add x y a b e1 e2 B : near x a e1 -> near y b e2 -> Rabs a + e1 + (Rabs b + e2) <= B -> B <= big ->
  near (fadd FA x y) (a + b) (e1 + e2 + u64 * B).
Proof.
  intros Hx Hy HB Hb. pose proof (near_size _ _ _ Hx) as Sx. pose proof (near_size _ _ _ Hy) as Sy. destruct Hx as (Fx & Ex), Hy as (Fy & Ey).
  assert (S1 : Rabs (value x + value y) <= B) by (eapply Rle_trans; [apply Rabs_triang|]; lra).
  destruct (fadd_err x y Fx Fy ltac:(lra)) as (F1 & E1). split; [exact F1|]. pose proof u64_pos.
  assert (u64 * Rabs (value x + value y) <= u64 * B) by (apply Rmult_le_compat_l; lra).
  match goal with |- Rabs (?z - (a + b)) <= _ => replace (z - (a + b)) with ((z - (value x + value y)) + ((value x - a) + (value y - b))) by ring end.
  eapply Rle_trans; [apply Rabs_triang|]. pose proof (Rabs_triang (value x - a) (value y - b)). lra.
Qed.
Lemma near_mul x y a b e1 e2 A B : near x a e1 -> near y b e2 -> Rabs a + e1 <= A -> Rabs b + e2 <= B -> A * B <= big ->
  near (fmul FA x y) (a * b) (A * e2 + B * e1 + u64 * (A * B) + eta64).
Proof.
  intros Hx Hy HA HB Hb. pose proof (near_size _ _ _ Hx) as Sx. pose proof (near_size _ _ _ Hy) as Sy. destruct Hx as (Fx & Ex), Hy as (Fy & Ey).
  pose proof (Rabs_pos (value x)). pose proof (Rabs_pos (value y)). pose proof (Rabs_pos (value y - b)). pose proof (Rabs_pos (value x - a)). pose proof (Rabs_pos b).
  assert (S1 : Rabs (value x * value y) <= A * B) by (rewrite Rabs_mult; apply Rmult_le_compat; lra).
  destruct (fmul_err x y Fx Fy ltac:(lra)) as (F1 & E1). split; [exact F1|]. pose proof u64_pos.
  assert (u64 * Rabs (value x * value y) <= u64 * (A * B)) by (apply Rmult_le_compat_l; lra).
  match goal with |- Rabs (?z - (a * b)) <= _ => replace (z - (a * b)) with ((z - (value x * value y)) + (value x * (value y - b) + b * (value x - a))) by ring end.
  eapply Rle_trans; [apply Rabs_triang|]. pose proof (Rabs_triang (value x * (value y - b)) (b * (value x - a))) as T. rewrite !Rabs_mult in T.
  assert (Rabs (value x) * Rabs (value y - b) <= A * e2) by (apply Rmult_le_compat; lra).
  assert (Rabs b * Rabs (value x - a) <= B * e1) by (apply Rmult_le_compat; lra). lra.
Qed.
Lemma near_div x y a e c A : near x a e -> value y = c -> 1 <= c -> Rabs a + e <= A -> A <= big ->
  near (fdiv FA x y) (a / c) (e + u64 * A + eta64).
Proof.
  intros Hx Hy Hc HA Hb. pose proof (near_size _ _ _ Hx) as Sx. destruct Hx as (Fx & Ex). pose proof u64_pos.
  assert (I : 0 < / c <= 1) by (split; [apply Rinv_0_lt_compat; lra|rewrite <- Rinv_1; apply Rinv_le_contravar; lra]).
  assert (Sc : forall t, Rabs (t / c) <= Rabs t). { intros t. unfold Rdiv. rewrite Rabs_mult, (Rabs_right (/ c)) by lra. pose proof (Rabs_pos t). nra. }
  pose proof (Sc (value x)) as S1. destruct (fdiv_err x y Fx) as (F1 & E1); [lra|rewrite Hy; lra|]. rewrite Hy in E1. split; [exact F1|].
  assert (u64 * Rabs (value x / c) <= u64 * A) by (apply Rmult_le_compat_l; lra).
  match goal with |- Rabs (?z - (a / c)) <= _ => replace (z - (a / c)) with ((z - value x / c) + (value x - a) / c) by (field; lra) end.
  eapply Rle_trans; [apply Rabs_triang|]. pose proof (Sc (value x - a)). lra.
Qed.

(** *** Constants *)
Lemma eta_le_uM M : / 2 ^ 900 <= M -> eta64 <= u64 * M.
Proof.
  intros H. pose proof u64_pos. apply Rle_trans with (u64 * / 2 ^ 900); [|apply Rmult_le_compat_l; lra]. unfold eta64, u64. rewrite <- Rinv_mult, <- pow_add.
  apply Rinv_le_contravar; [apply pow_lt; lra|]. apply Rle_pow; [lra|lia].
Qed.
Lemma big_room M : M <= 2 ^ 900 -> 1000 * M <= big.
Proof.
  intros H. unfold big. replace (2 ^ 1000) with (2 ^ 100 * 2 ^ 900) by (rewrite <- pow_add; reflexivity). assert (0 < 2 ^ 900) by (apply pow_lt; lra).
  assert (1000 <= 2 ^ 100). { apply Rle_trans with (2 ^ 10); [cbn; lra|]. apply Rle_pow; [lra|lia]. } nra.
Qed.
Lemma const2 : value (fofZ FA 2 : float) = 2 /\ is_finite (fofZ FA 2 : float) = true.
Proof. destruct (b64_exact 2 ltac:(lia)) as (V & F1 & _). split; assumption. Qed.
Lemma const6 : value (fofZ FA 6 : float) = 6 /\ is_finite (fofZ FA 6 : float) = true.
Proof. destruct (b64_exact 6 ltac:(lia)) as (V & F1 & _). split; assumption. Qed.
Lemma const_half : value (flit FA 1 2 : float) = 1 / 2 /\ is_finite (flit FA 1 2 : float) = true.
Proof.
  split; [|reflexivity]. rewrite <- SF2R_B2SF. replace (B2SF (flit FA 1 2 : float)) with (SpecFloat.S754_finite false 4503599627370496 (-53)) by (vm_compute; reflexivity).
  unfold SF2R, F2R. cbn. lra.
Qed.

(** *** The intermediate opinion of a stage *)
Lemma stage_near (x k h : float) c M : is_finite x = true -> is_finite k = true -> near h c (u64 * 1) -> 0 <= c <= 1 -> Rabs (value x) <= M -> Rabs (value k) <= 4 * M ->
  / 2 ^ 900 <= M <= 2 ^ 900 -> near (fadd FA x (fmul FA h k)) (value x + c * value k) (32 * u64 * M).
Proof.
  intros Fx Fk Hh Hc HM HK HMb. assert (M0 : 0 < M) by (assert (0 < / 2 ^ 900) by (apply Rinv_0_lt_compat, pow_lt; lra); lra).
  pose proof u64_pos as U. pose proof u64_small as U1. assert (U2 : u64 <= / 1000) by (eapply Rle_trans; [exact U1|cbn; lra]). pose proof (eta_le_uM M (proj1 HMb)) as Et. pose proof (big_room M (proj2 HMb)) as Bg. pose proof eta64_pos.
  assert (N1 : near (fmul FA h k) (c * value k) (4 * M * (u64 * 1) + u64 * (2 * (4 * M)) + eta64)).
  { eapply near_weaken; [apply (near_mul h k c (value k) (u64 * 1) 0 2 (4 * M) Hh (near_self k Fk))|]; rewrite ?(Rabs_right c) by lra; lra. }
  assert (N1' : near (fmul FA h k) (c * value k) (13 * u64 * M)) by (eapply near_weaken; [exact N1|nra]).
  assert (SK : Rabs (c * value k) <= 4 * M). { rewrite Rabs_mult, (Rabs_right c) by lra. pose proof (Rabs_pos (value k)). nra. }
  eapply near_weaken; [apply (near_add _ _ _ _ 0 (13 * u64 * M) (6 * M) (near_self x Fx) N1')|]; nra.
Qed.

(** *** The update *)
Lemma update_near (x k1 k2 k3 k4 h : float) M : is_finite x = true -> is_finite k1 = true -> is_finite k2 = true -> is_finite k3 = true -> is_finite k4 = true -> is_finite h = true ->
  0 <= value h <= 1 -> Rabs (value x) <= M -> Rabs (value k1) <= 4 * M -> Rabs (value k2) <= 4 * M -> Rabs (value k3) <= 4 * M -> Rabs (value k4) <= 4 * M ->
  / 2 ^ 900 <= M <= 2 ^ 900 ->
  near (fadd FA x (fdiv FA (fmul FA h (fadd FA (fadd FA (fadd FA k1 (fmul FA (fofZ FA 2) k2)) (fmul FA (fofZ FA 2) k3)) k4)) (fofZ FA 6)))
       (value x + value h / 6 * (value k1 + 2 * value k2 + 2 * value k3 + value k4)) (1000 * u64 * M).
Proof.
  intros Fx F1 F2 F3 F4 Fh Hh HM H1 H2 H3 H4 HMb. assert (M0 : 0 < M) by (assert (0 < / 2 ^ 900) by (apply Rinv_0_lt_compat, pow_lt; lra); lra).
  pose proof u64_pos as U. pose proof u64_small as U1. assert (U2 : u64 <= / 1000) by (eapply Rle_trans; [exact U1|cbn; lra]). pose proof (eta_le_uM M (proj1 HMb)) as Et. pose proof (big_room M (proj2 HMb)) as Bg. pose proof eta64_pos.
  set (d := u64 * M) in *. assert (D0 : 0 < d) by (apply Rmult_lt_0_compat; lra). assert (D1 : d <= M / 1000) by (unfold d; nra).
  destruct const2 as (C2 & Fc2). destruct const6 as (C6 & _).
  assert (T : forall k : float, is_finite k = true -> Rabs (value k) <= 4 * M -> near (fmul FA (fofZ FA 2) k) (2 * value k) (9 * d) /\ Rabs (2 * value k) <= 8 * M).
  { intros k Fk Hk. split; [|rewrite Rabs_mult, Rabs_right; lra]. pose proof (near_self _ Fc2) as N. rewrite C2 in N. eapply near_weaken; [apply (near_mul _ k 2 (value k) 0 0 2 (4 * M) N (near_self k Fk))|]; rewrite ?(Rabs_right 2) by lra; try lra.
    unfold d in *. lra. }
  destruct (T k2 F2 H2) as (N2 & S2). destruct (T k3 F3 H3) as (N3 & S3).
  assert (Q1 : near (fadd FA k1 (fmul FA (fofZ FA 2) k2)) (value k1 + 2 * value k2) (22 * d)).
  { eapply near_weaken; [apply (near_add _ _ _ _ 0 (9 * d) (13 * M) (near_self k1 F1) N2)|]; try lra. unfold d in *; lra. }
  assert (S12 : Rabs (value k1 + 2 * value k2) <= 12 * M) by (eapply Rle_trans; [apply Rabs_triang|]; lra).
  assert (Q2 : near (fadd FA (fadd FA k1 (fmul FA (fofZ FA 2) k2)) (fmul FA (fofZ FA 2) k3)) (value k1 + 2 * value k2 + 2 * value k3) (52 * d)).
  { eapply near_weaken; [apply (near_add _ _ _ _ (22 * d) (9 * d) (21 * M) Q1 N3)|]; try lra. unfold d in *; lra. }
  assert (S13 : Rabs (value k1 + 2 * value k2 + 2 * value k3) <= 20 * M) by (eapply Rle_trans; [apply Rabs_triang|]; lra).
  assert (Q3 : near (fadd FA (fadd FA (fadd FA k1 (fmul FA (fofZ FA 2) k2)) (fmul FA (fofZ FA 2) k3)) k4) (value k1 + 2 * value k2 + 2 * value k3 + value k4) (78 * d)).
  { eapply near_weaken; [apply (near_add _ _ _ _ (52 * d) 0 (26 * M) Q2 (near_self k4 F4))|]; try lra. unfold d in *; lra. }
  assert (S14 : Rabs (value k1 + 2 * value k2 + 2 * value k3 + value k4) <= 24 * M) by (eapply Rle_trans; [apply Rabs_triang|]; lra).
  set (s := value k1 + 2 * value k2 + 2 * value k3 + value k4) in *. set (fs := fadd FA (fadd FA (fadd FA k1 (fmul FA (fofZ FA 2) k2)) (fmul FA (fofZ FA 2) k3)) k4) in *.
  assert (Q4 : near (fmul FA h fs) (value h * s) (105 * d)).
  { eapply near_weaken; [apply (near_mul h fs (value h) s 0 (78 * d) 1 (25 * M) (near_self h Fh) Q3)|]; rewrite ?(Rabs_right (value h)) by lra; try lra. unfold d in *; lra. }
  assert (S4 : Rabs (value h * s) <= 24 * M). { rewrite Rabs_mult, (Rabs_right (value h)) by lra. pose proof (Rabs_pos s). nra. }
  assert (Q5 : near (fdiv FA (fmul FA h fs) (fofZ FA 6)) (value h * s / 6) (131 * d)).
  { eapply near_weaken; [apply (near_div _ _ _ (105 * d) 6 (25 * M) Q4 C6)|]; try lra. unfold d in *; lra. }
  assert (S5 : Rabs (value h * s / 6) <= 24 * M). { unfold Rdiv. rewrite Rabs_mult, (Rabs_right (/ 6)) by lra. pose proof (Rabs_pos (value h * s)). lra. }
  replace (value h / 6 * s) with (value h * s / 6) by field.
  eapply near_weaken; [apply (near_add _ _ _ _ 0 (131 * d) (26 * M) (near_self x Fx) Q5)|]; try lra. unfold d in *; lra.
Qed.

(** *** The step: pulls of size at most M/2 *)
Lemma perturbed_step (x h M k1 k2 k3 k4 y2 y3 y4 z e : R) : / 2 ^ 20 <= h <= 1 -> 0 < M -> Rabs x <= M ->
  Rabs (k1 + x) <= M / 2 -> Rabs (k2 + y2) <= M / 2 -> Rabs (k3 + y3) <= M / 2 -> Rabs (k4 + y4) <= M / 2 ->
  Rabs (y2 - (x + h / 2 * k1)) <= M / 8 -> Rabs (y3 - (x + h / 2 * k2)) <= M / 8 -> Rabs (y4 - (x + h * k3)) <= M / 8 ->
  Rabs (z - (x + h / 6 * (k1 + 2 * k2 + 2 * k3 + k4))) <= e -> e <= / 2 ^ 24 * M -> Rabs z <= M.
Proof.
  intros Hh HM Hx H1 H2 H3 H4 E2 E3 E4 Ez He.
  assert (h0 : 0 < h <= 1). { split; [|lra]. assert (0 < / 2 ^ 20) by (apply Rinv_0_lt_compat, pow_lt; lra). lra. }
  set (g1 := k1 + x). set (Y2 := x + h / 2 * k1) in *. set (g2 := k2 + Y2). set (Y3 := x + h / 2 * k2) in *. set (g3 := k3 + Y3). set (Y4 := x + h * k3) in *. set (g4 := k4 + Y4).
  assert (G : forall k y Y, Rabs (k + y) <= M / 2 -> Rabs (y - Y) <= M / 8 -> Rabs (k + Y) <= 5 / 8 * M).
  { intros k y Y A1 A2. replace (k + Y) with ((k + y) - (y - Y)) by ring. eapply Rle_trans; [apply Rabs_triang|]. rewrite Rabs_Ropp. lra. }
  assert (B1 : Rabs g1 <= 5 / 8 * M) by (unfold g1; lra). pose proof (G _ _ _ H2 E2) as B2. pose proof (G _ _ _ H3 E3) as B3. pose proof (G _ _ _ H4 E4) as B4. fold g2 in B2. fold g3 in B3. fold g4 in B4.
  pose proof (mixture x h g1 g2 g3 g4 Y2 Y3 Y4) as Mx.
  replace (g1 - x) with k1 in Mx by (unfold g1; ring). replace (g2 - Y2) with k2 in Mx by (unfold g2; ring). replace (g3 - Y3) with k3 in Mx by (unfold g3; ring). replace (g4 - Y4) with k4 in Mx by (unfold g4; ring).
  specialize (Mx eq_refl eq_refl eq_refl). destruct (mixture_pos h h0) as (P0 & P1 & P2 & P3 & P4 & PD). pose proof (mixture_sum h) as PS.
  rewrite Mx in Ez. set (c0 := decay h) in *. set (c1 := mix1 h) in *. set (c2 := mix2 h) in *. set (c3 := mix3 h) in *. set (c4 := mix4 h) in *.
  assert (V : forall c g, 0 <= c -> Rabs g <= 5 / 8 * M -> Rabs (c * g) <= c * (5 / 8 * M)). { intros c g C0 Hg. rewrite Rabs_mult, (Rabs_right c) by lra. apply Rmult_le_compat_l; lra. }
  assert (V0 : Rabs (c0 * x) <= c0 * M). { rewrite Rabs_mult, (Rabs_right c0) by lra. apply Rmult_le_compat_l; lra. }
  pose proof (V c1 g1 P1 B1) as V1. pose proof (V c2 g2 P2 B2) as V2. pose proof (V c3 g3 P3 B3) as V3. pose proof (V c4 g4 P4 B4) as V4.
  assert (T : Rabs (c0 * x + c1 * g1 + c2 * g2 + c3 * g3 + c4 * g4) <= c0 * M + (1 - c0) * (5 / 8 * M)).
  { replace (1 - c0) with (c1 + c2 + c3 + c4) by lra. eapply Rle_trans; [apply Rabs_triang|]. eapply Rle_trans; [apply Rplus_le_compat_r, Rabs_triang|].
    eapply Rle_trans; [apply Rplus_le_compat_r, Rplus_le_compat_r, Rabs_triang|]. eapply Rle_trans; [apply Rplus_le_compat_r, Rplus_le_compat_r, Rplus_le_compat_r, Rabs_triang|]. lra. }
  assert (D : / 2 ^ 21 <= 1 - c0). { replace (/ 2 ^ 21) with (/ 2 ^ 20 / 2); [lra|]. replace (2 ^ 21) with (2 * 2 ^ 20) by (cbn; ring). assert (0 < 2 ^ 20) by (apply pow_lt; lra). field; try lra. }
  assert (D' : 8 * / 2 ^ 24 = / 2 ^ 21). { replace (2 ^ 24) with (8 * 2 ^ 21) by (cbn; ring). assert (0 < 2 ^ 21) by (apply pow_lt; lra). field; try lra. }
  replace z with ((c0 * x + c1 * g1 + c2 * g2 + c3 * g3 + c4 * g4) + (z - (c0 * x + c1 * g1 + c2 * g2 + c3 * g3 + c4 * g4))) by ring.
  eapply Rle_trans; [apply Rabs_triang|]. assert (/ 2 ^ 21 * M <= (1 - c0) * M) by (apply Rmult_le_compat_r; lra).
  assert (8 * / 2 ^ 24 * M = / 2 ^ 21 * M) by (rewrite D'; reflexivity). assert (0 < / 2 ^ 24 * M) by (apply Rmult_lt_0_compat; [apply Rinv_0_lt_compat, pow_lt; lra|lra]). lra.
Qed.
